(** * Lemmas for C82-C85. *)
From Verif Require Import Base DataModel DataProofs SaveProofs MdlModel MdlSpec MdlProofs MdlProps SymModel SymSpec.
Import List.
Local Open Scope string_scope.

Lemma space_eqb_eq a b : space_eqb a b = true <-> a = b.
Proof. destruct a as [[]| |], b as [[]| |]; cbn; split; congruence. Qed.
Lemma sym_eqb_eq a b : sym_eqb a b = true <-> a = b.
Proof.
  destruct a as [g s n i|k], b as [g' s' n' i'|k']; cbn; split; try congruence.
  - rewrite !andb_true_iff. intros (((A & B) & C) & D). apply Nat.eqb_eq in A, D. apply String.eqb_eq in C. apply space_eqb_eq in B. congruence.
  - intros X. inversion X; subst. rewrite !Nat.eqb_refl, String.eqb_refl. rewrite (proj2 (space_eqb_eq s' s') eq_refl). reflexivity.
  - intros X. apply Nat.eqb_eq in X. congruence.
  - intros X. inversion X; subst. apply Nat.eqb_refl.
Qed.
Lemma mem_sym_in s l : mem_sym s l = true <-> In s l.
Proof.
  unfold mem_sym. rewrite existsb_exists. split.
  - intros (x & A & B). apply sym_eqb_eq in B. subst x. exact A.
  - intros A. exists s. split; [exact A|]. apply sym_eqb_eq. reflexivity.
Qed.

Section P.
  Context {V : Type}.
  Variable op : nat -> V -> V -> V.
  Variable v0 : V.
  Notation ex := (ex V).
  Notation eval := (eval V op).
  Notation syms := (syms V).

  Lemma occurs_syms s (e : ex) : occurs V s e = true <-> In s (syms e).
  Proof.
    induction e as [c|t|k a IHa b IHb]; cbn; [split; [discriminate|intros []]| |].
    - rewrite sym_eqb_eq. split; [intros ->; left; reflexivity|intros [->|[]]; reflexivity].
    - rewrite orb_true_iff, in_app_iff, IHa, IHb. tauto.
  Qed.
  Lemma eval_ext (r1 r2 : sym -> V) e : (forall s, In s (syms e) -> r1 s = r2 s) -> eval r1 e = eval r2 e.
  Proof.
    induction e as [c|t|k a IHa b IHb]; cbn; intros H; [reflexivity|apply H; left; reflexivity|].
    rewrite IHa, IHb; [reflexivity| |]; intros s Hs; apply H; apply in_app_iff; tauto.
  Qed.
  Lemma eval_subst rho f e : eval rho (subst V f e) = eval (fun s => eval rho (f s)) e.
  Proof. induction e as [c|t|k a IHa b IHb]; cbn; [reflexivity..|]. rewrite IHa, IHb. reflexivity. Qed.
  Lemma syms_subst f e : syms (subst V f e) = flat_map (fun s => syms (f s)) (syms e).
  Proof. induction e as [c|t|k a IHa b IHb]; cbn; [reflexivity|rewrite app_nil_r; reflexivity|]. rewrite IHa, IHb, flat_map_app. reflexivity. Qed.

  (** the renaming done by one substitution *)
  Definition tgt (s : space) (n : string) (y : sym) : sym :=
    match y with Own 0 s' n' i => if space_eqb s s' && String.eqb n n' then Own 1 s n i else y | _ => y end.
  Definition tgts (ds : list (space * list (string * nat))) (y : sym) : sym :=
    fold_left (fun y d => fold_left (fun y v => tgt (fst d) (fst v) y) (snd d) y) ds y.
  Lemma syms_substitute s n e : syms (substitute V s n e) = map (tgt s n) (syms e).
  Proof.
    unfold substitute. rewrite syms_subst. induction (syms e) as [|y l IH]; [reflexivity|]. cbn [flat_map map]. rewrite IH. f_equal.
    destruct y as [[|g] s' n' i|k]; cbn; [destruct (space_eqb s s' && String.eqb n n')|..]; reflexivity.
  Qed.
  Lemma eval_substitute rho s n e : eval rho (substitute V s n e) = eval (fun y => rho (tgt s n y)) e.
  Proof.
    unfold substitute. rewrite eval_subst. apply eval_ext. intros y _.
    destruct y as [[|g] s' n' i|k]; cbn; [destruct (space_eqb s s' && String.eqb n n')|..]; reflexivity.
  Qed.
  Lemma subs_inner s (l : list (string * nat)) : forall e,
    syms (fold_left (fun e v => substitute V s (fst v) e) l e) = map (fun y => fold_left (fun y v => tgt s (fst v) y) l y) (syms e) /\
    (forall rho, eval rho (fold_left (fun e v => substitute V s (fst v) e) l e) = eval (fun y => rho (fold_left (fun y v => tgt s (fst v) y) l y)) e).
  Proof.
    induction l as [|v l IH]; intros e; cbn [fold_left].
    - split; [symmetry; apply map_id|reflexivity].
    - destruct (IH (substitute V s (fst v) e)) as [A B]. split.
      + rewrite A, syms_substitute, map_map. reflexivity.
      + intros rho. rewrite B, eval_substitute. reflexivity.
  Qed.
  Lemma subs_all ds : forall e,
    syms (substitute_all V ds e) = map (tgts ds) (syms e) /\
    (forall rho, eval rho (substitute_all V ds e) = eval (fun y => rho (tgts ds y)) e).
  Proof.
    unfold substitute_all, tgts. induction ds as [|d ds IH]; intros e; cbn [fold_left].
    - split; [symmetry; apply map_id|reflexivity].
    - destruct (IH (fold_left (fun e v => substitute V (fst d) (fst v) e) (snd d) e)) as [A B].
      destruct (subs_inner (fst d) (snd d) e) as [A' B']. split.
      + rewrite A, A', map_map. reflexivity.
      + intros rho. rewrite B, B'. reflexivity.
  Qed.
  (** what the renaming does to a symbol *)
  Lemma tgt_cases s n y : tgt s n y = y \/ exists i, y = Own 0 s n i /\ tgt s n y = Own 1 s n i.
  Proof.
    destruct y as [[|g] s' n' i|k]; cbn; auto. destruct (space_eqb s s' && String.eqb n n') eqn:Q; auto.
    apply andb_true_iff in Q. destruct Q as [Q1 Q2]. apply space_eqb_eq in Q1. apply String.eqb_eq in Q2. subst. right. eauto.
  Qed.
  Lemma tgts_inner_cases s (l : list (string * nat)) : forall y,
    fold_left (fun y v => tgt s (fst v) y) l y = y \/ exists n i, y = Own 0 s n i /\ fold_left (fun y v => tgt s (fst v) y) l y = Own 1 s n i.
  Proof.
    induction l as [|v l IH]; intros y; cbn [fold_left]; [auto|].
    destruct (tgt_cases s (fst v) y) as [->|(i & -> & ->)]; [apply IH|].
    right. exists (fst v), i. split; [reflexivity|]. destruct (IH (Own 1 s (fst v) i)) as [->|(? & ? & X & _)]; [reflexivity|discriminate].
  Qed.
  Lemma tgts_cases ds : forall y, tgts ds y = y \/ exists s n i, y = Own 0 s n i /\ tgts ds y = Own 1 s n i.
  Proof.
    unfold tgts. induction ds as [|d ds IH]; intros y; cbn [fold_left]; [auto|].
    destruct (tgts_inner_cases (fst d) (snd d) y) as [->|(n & i & -> & ->)]; [apply IH|].
    right. exists (fst d), n, i. split; [reflexivity|]. destruct (IH (Own 1 (fst d) n i)) as [->|(? & ? & ? & X & _)]; [reflexivity|discriminate].
  Qed.
  Lemma tgts_inner_hit s (l : list (string * nat)) n i : In n (map fst l) ->
    fold_left (fun y v => tgt s (fst v) y) l (Own 0 s n i) = Own 1 s n i.
  Proof.
    assert (K : forall l : list (string * nat), fold_left (fun y v => tgt s (fst v) y) l (Own 1 s n i) = Own 1 s n i).
    { intros l0. induction l0 as [|w l0 IH]; [reflexivity|exact IH]. }
    induction l as [|v l IH]; intros H; [contradiction|]. cbn [fold_left].
    cbn [tgt]. rewrite (proj2 (space_eqb_eq s s) eq_refl). cbn [andb].
    destruct (String.eqb_spec (fst v) n) as [->|N]; [apply K|]. apply IH. destruct H as [H|H]; [contradiction|exact H].
  Qed.
  Lemma tgts_hit ds s l n i : In (s, l) ds -> In n (map fst l) -> tgts ds (Own 0 s n i) = Own 1 s n i.
  Proof.
    assert (K : forall ds, tgts ds (Own 1 s n i) = Own 1 s n i).
    { intros ds0. destruct (tgts_cases ds0 (Own 1 s n i)) as [X|(? & ? & ? & X & _)]; [exact X|discriminate]. }
    unfold tgts in *. induction ds as [|d ds IH]; intros H Hn; [contradiction|]. cbn [fold_left].
    destruct H as [->|H].
    - cbn [fst snd]. rewrite (tgts_inner_hit s l n i Hn). apply K.
    - destruct (tgts_inner_cases (fst d) (snd d) (Own 0 s n i)) as [->|(n' & i' & X & ->)]; [apply IH; assumption|].
      inversion X; subst. apply K.
  Qed.

  (** looking up a symbol whose values are given by a function *)
  Lemma lookup_map {A} (f : sym -> A) d ss s : In s ss -> lookup ss (map f ss) d s = f s.
  Proof.
    induction ss as [|t ss IH]; intros H; [contradiction|]. cbn. destruct (sym_eqb s t) eqn:Q.
    - apply sym_eqb_eq in Q. subst. reflexivity.
    - apply IH. destruct H as [->|H]; [|exact H]. rewrite (proj2 (sym_eqb_eq s s) eq_refl) in Q. discriminate.
  Qed.
  Lemma same_lens_map {A} (f : sym -> A) ins : same_lens ins (map (map f) ins) = true.
  Proof. induction ins as [|l ins IH]; [reflexivity|]. cbn. rewrite map_length, Nat.eqb_refl. exact IH. Qed.
  Lemma call_map (f : sym -> V) ins outs F : mk_fun V ins outs = Ok F ->
    call V op v0 F (map (map f) ins) = Ok (map (eval f) outs) /\
    Forall (fun e => forall s, In s (syms e) -> In s (List.concat ins)) outs.
  Proof.
    unfold mk_fun. destruct (forallb (closed V ins) outs) eqn:Q; [|discriminate]. intros X. injection X as <-.
    assert (FA : Forall (fun e => forall s, In s (syms e) -> In s (List.concat ins)) outs).
    { apply Forall_forall. intros e He s Hs. rewrite forallb_forall in Q. specialize (Q e He). unfold closed in Q.
      rewrite forallb_forall in Q. apply mem_sym_in. apply Q. exact Hs. }
    split; [|exact FA]. unfold call. cbn [f_in f_out]. rewrite same_lens_map. f_equal. apply map_ext_in. intros e He.
    apply eval_ext. intros s Hs. rewrite <- concat_map. apply lookup_map. rewrite Forall_forall in FA. exact (FA e He s Hs).
  Qed.
  Lemma callsym_map (f : sym -> ex) ins outs F : mk_fun V ins outs = Ok F ->
    callsym V v0 F (map (map f) ins) = Ok (map (subst V f) outs).
  Proof.
    intros M. destruct (call_map (fun _ => v0) _ _ _ M) as [_ FA]. unfold mk_fun in M. destruct (forallb (closed V ins) outs); [|discriminate]. injection M as <-.
    unfold callsym. cbn [f_in f_out]. rewrite same_lens_map. f_equal. apply map_ext_in. intros e He.
    rewrite Forall_forall in FA. specialize (FA e He). clear He. rewrite <- concat_map.
    induction e as [c|t|k a IHa b IHb]; cbn; [reflexivity| |].
    - apply lookup_map. apply FA. left. reflexivity.
    - rewrite IHa, IHb; [reflexivity| |]; intros s Hs; apply FA; cbn; apply in_app_iff; tauto.
  Qed.
  Lemma mk_fun_iff ins outs : is_ok (mk_fun V ins outs) = true <-> forall e, In e outs -> forall s, In s (syms e) -> In s (List.concat ins).
  Proof.
    unfold mk_fun. destruct (forallb (closed V ins) outs) eqn:Q; cbn; split; try discriminate; auto.
    - intros _ e He s Hs. rewrite forallb_forall in Q. specialize (Q e He). unfold closed in Q. rewrite forallb_forall in Q. apply mem_sym_in, Q, Hs.
    - intros H. assert (X : forallb (closed V ins) outs = true); [|congruence]. apply forallb_forall. intros e He. apply forallb_forall. intros s Hs.
      apply mem_sym_in. exact (H e He s Hs).
  Qed.

  (** the symbols of a structure *)
  Lemma in_struct g s l y : In y (struct_syms g s l) <-> exists n i size, y = Own g s n i /\ In (n, size) l /\ i < size.
  Proof.
    unfold struct_syms. rewrite in_flat_map. split.
    - intros ((n & size) & A & B). apply in_map_iff in B. destruct B as (i & <- & C). apply in_seq in C. exists n, i, size. cbn in *. repeat split; [exact A|lia].
    - intros (n & i & size & -> & A & B). exists (n, size). split; [exact A|]. apply in_map. apply in_seq. cbn. lia.
  Qed.
  Definition vfun (val : space -> string -> nat -> V) (y : sym) : V := match y with Own _ s n i => val s n i | Foreign _ => v0 end.
  Lemma column_struct g val s l : column val s l = map (vfun val) (struct_syms g s l).
  Proof.
    unfold column, struct_syms. induction l as [|v l IH]; [reflexivity|]. cbn [flat_map]. rewrite map_app, IH, map_map. reflexivity.
  Qed.
End P.
