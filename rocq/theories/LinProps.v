(** * C46 (discretize), C47 (get_steady_state), C68 (linearize), C69 (stored matrices). *)
From Verif Require Import Base.
From mathcomp Require Import all_ssreflect all_algebra.
From Verif Require Import LqrModel LinModel LinSpec LinProofs.
Set Implicit Arguments.
Unset Strict Implicit.
Unset Printing Implicit Defensive.
Import GRing.Theory.
Local Open Scope ring_scope.

Section Inv.
  Variable F : realFieldType.
  Variables n m : nat.
  Variable par : Type.
  Variable struct_ok : seq string -> bool.
  Variable pinv : 'M[F]_(n,m) -> 'M[F]_(m,n).
  Notation lin := (lin F n m par).

  Definition outs (s : lin) : seq (aff F n m par) := flatten [seq nm.2 | nm <- l_meas s].
  Definition linv (s : lin) : Prop :=
    forall y, l_sys s = Some y -> size (last [::] (l_rhs s)) = n /\ y = matrices (last [::] (l_rhs s)) (outs s).

  (** The parts of a set-up model no later call changes. *)
  Definition frozen (s s' : lin) := l_type s' = l_type s /\ l_rhs s' = l_rhs s /\ l_meas s' = l_meas s /\ l_sys s' = l_sys s.

  Lemma steady_frozen xa ua s : frozen s (fst (get_steady_state pinv xa ua s)).
  Proof.
    rewrite /get_steady_state. case: s => t rh me [y|] ss //=. case: t => //=.
    case: ifP => _.
    { case: ua => //= l. case: (np_inv _) => //= M. by case: ifP. }
    case: ifP => _ //. case: ifP => _.
    { case: xa => //= l. by case: ifP. }
    case: ifP => _ //. case: xa => //= l. case: (inv_sq _) => //= M. by case: ifP.
  Qed.

  Lemma setup_frozen A B C D (s : lin) : setup_done s -> fst (lin_setup struct_ok A B C D s) = s.
  Proof.
    move=> H. rewrite /lin_setup. case: (y_meas n m par C D) => // -[es|] //=.
    { by rewrite /lin_set_meas all_some H. }
    case: (x_next n m par A B) => // -[es|] //=; last by rewrite H.
    by rewrite /lin_set_rhs all_some H.
  Qed.

  Lemma step_frozen s o : setup_done s -> frozen s (lstep struct_ok pinv s o).
  Proof.
    move=> H. case: o => [es|nm es|A B C D|x u] /=.
    - by rewrite /lin_set_rhs; case: ifP => //= _; rewrite H.
    - by rewrite /lin_set_meas; case: ifP => //= _; rewrite H.
    - by rewrite setup_frozen.
    - exact: steady_frozen.
  Qed.

  Lemma last_rev {T} (d : T) (l : seq T) a r : rev l = a :: r -> last d l = a.
  Proof. move=> E. by rewrite -[l]revK E rev_cons last_rcons. Qed.

  Lemma finish_inv s : setup_done s = false -> linv (fst (finish struct_ok s)).
  Proof.
    case: s => t rh me [y|] ss //= _. rewrite /finish /=.
    case: ifP => _ //=. case: ifP => _ //=.
    case E : (rev rh) => [|a r] //=. case: eqP => // Hs y /= [<-].
    by rewrite (last_rev _ E).
  Qed.

  Lemma setup_inv A B C D s : linv s -> linv (fst (lin_setup struct_ok A B C D s)).
  Proof.
    move=> H. case Hd : (setup_done s); first by rewrite setup_frozen.
    have L s' : setup_done s' = false -> linv s' by case: s' => ? ? ? [].
    case: s H Hd => ty rh me [?|] ss // H _.
    rewrite /lin_setup. case: (y_meas n m par C D) => // -[es|] /=.
    - rewrite /lin_set_meas all_some /=.
      case: (x_next n m par A B) => [[es'|]|e] /=; last by apply: L.
      + rewrite /lin_set_rhs all_some. exact: finish_inv.
      + exact: finish_inv.
    - case: (x_next n m par A B) => [[es'|]|e] //=.
      + rewrite /lin_set_rhs all_some. exact: finish_inv.
      + exact: finish_inv.
  Qed.

  Lemma hist_inv t h : linv (lhist struct_ok pinv t h).
  Proof.
    rewrite /lhist. have : linv (lin_init F n m par t) by [].
    elim: h (lin_init F n m par t) => //= o h IH s H. apply: IH.
    case Hd : (setup_done s).
    - have [_ [E2 [E3 E4]]] := step_frozen o Hd. move=> y. rewrite E4 E2 /outs E3. exact: H.
    - have L s' : setup_done s' = false -> linv s' by case: s' => ? ? ? [].
      case: o => [es|nm es|A B C D|x u] /=.
      + rewrite /lin_set_rhs. case: ifP => // _. rewrite Hd /=. exact: L.
      + rewrite /lin_set_meas. case: ifP => // _. rewrite Hd /=. exact: L.
      + exact: setup_inv.
      + have [_ [E2 [E3 E4]]] := steady_frozen x u s. move=> y. rewrite E4 E2 /outs E3. exact: H.
  Qed.
End Inv.

(** C69: after any calls, the matrices sys_A ... sys_D of a set-up linear model are those of its
    right-hand side and measurement equation: these equal A x + B u and C x + D u up to terms that do
    not depend on x and u. *)
Theorem C69_matrices : forall (F : realFieldType) n m par struct_ok pinv t (h : seq (lop F n m par)) y,
  let s := lhist struct_ok pinv t h in
  l_sys s = Some y -> forall x u q,
    lin_rhs s x u q = sA y *m x + sB y *m u + lin_rhs s 0 0 q /\
    lin_meas s x u q = [seq ab.1 + ab.2 | ab <- zip (linear_outputs (sC y) (sD y) x u) (lin_meas s 0 0 q)].
Proof.
  move=> F n m par ok pinv t h y s E x u q. have [Hsz Hy] := hist_inv E.
  rewrite -/s in Hsz Hy. split.
  - apply/colP => i. rewrite Hy /= !mxE /ev. rewrite !mulmx0 !mxE !add0r.
    congr (_ + _ + _).
    + by apply: eq_bigr => j _; rewrite !mxE.
    + by apply: eq_bigr => j _; rewrite !mxE.
  - rewrite Hy /lin_meas /= -/(outs s). elim: (outs s) => //= e l ->. congr (_ :: _).
    by rewrite /ev !mulmx0 !addr0 !mxE add0r.
Qed.
Print Assumptions C69_matrices.

(** Non-vacuous: declaring x+ = x + u + 5, y = 2 x + u - 1 over any field gives A = B = 1, C = 2, D = 1. *)
Section Ex.
  Variable F : realFieldType.
  Definition ex_hist : seq (lop F 1 1 unit) :=
    [:: LRhs [:: Some (Aff 1%:M 1%:M (fun=> 5%:R))];
        LMeas "y" [:: Some (Aff (2%:R)%:M 1%:M (fun=> -1))];
        LSetup None None None None].
  Example C69_nonvacuous :
    l_sys (lhist (fun=> true) (fun=> 0) Discrete ex_hist)
    = Some (mkSys 1%:M 1%:M [:: (2%:R)%:M] [:: (1%:M : 'rV[F]_1)]).
  Proof.
    rewrite /lhist /= /matrices /=. congr (Some (mkSys _ _ _ _)).
    - by apply/matrixP => i j; rewrite mxE !ord1.
    - by apply/matrixP => i j; rewrite mxE !ord1.
  Qed.
End Ex.

(** C69 (second part, refuted): setup that raised because A has the wrong shape cannot simply be
    repeated with the right A: the measurement of the failed attempt is still there, so the model has
    every measured number twice (or CasADi refuses the repeated name). *)
Theorem C69_setup_retry_refuted : forall (F : realFieldType) n m (par : Type) struct_ok t
    (A : 'M[F]_n) (B : 'M[F]_(n,m)) (C : seq 'rV[F]_n) (wrong : arr F),
  nr wrong <> n ->
  let s0 := lin_init F n m par t in
  let r1 := lin_setup struct_ok (Some wrong) (Some (of_mx B)) (Some (of_rows C)) None s0 in
  let r2 := lin_setup struct_ok (Some (of_mx A)) (Some (of_mx B)) (Some (of_rows C)) None (fst r1) in
  snd r1 = Err ExcValue /\
  (snd r2 = Ok tt -> forall x u q, lin_meas (fst r2) x u q = (linear_outputs C (nseq (size C) 0) x u ++ linear_outputs C (nseq (size C) 0) x u)%SEQ).
Proof.
  move=> F n m par ok t A B C wrong Hw s0 r1 r2.
  have E1 : r1 = (mkLin t [::] [:: ("y"%string, rows_meas par C (nseq (size C) 0))] None None, Err ExcValue).
  { rewrite /r1 /lin_setup [y_meas _ _ _ _ _]/y_meas /= eqxx rows_of_of_rows -rows_meas_zero.
    rewrite /lin_set_meas all_some pmap_some /= /x_next. case: eqP => //=. }
  split; first by rewrite E1.
  rewrite /r2 E1 /lin_setup [y_meas _ _ _ _ _]/y_meas /= eqxx rows_of_of_rows -rows_meas_zero.
  rewrite /lin_set_meas all_some pmap_some. cbn -[x_next finish].
  rewrite x_next_ok /lin_set_rhs all_some pmap_some. cbn -[finish].
  rewrite /finish /=. case: ifP => //= _. case: ifP => //= _. rewrite size_rows_rhs eqxx /= => _ x u q.
  rewrite /lin_meas /= cats0 map_cat.
  have E : forall l : seq _, [seq ev e x u q | e <- [seq lin_aff par rr.1 rr.2 | rr <- l]] = [seq (rr.1 *m x + rr.2 *m u) 0 0 | rr <- l].
  { by elim=> //= a l ->; rewrite {1}/ev /= addr0. }
  by rewrite E.
Qed.
Print Assumptions C69_setup_retry_refuted.

Section C46.
  Variable F : realFieldType.
  Variables n m : nat.
  Variable par : Type.
  Variable struct_ok : seq string -> bool.
  Hypothesis struct_uniq : forall l, List.NoDup l -> struct_ok l.
  Variable pinv : 'M[F]_(n,m) -> 'M[F]_(m,n).
  Variable c2d : sys F n m -> F -> string -> res (sys F n m).

  Lemma zip_nseq0 (C : seq 'rV[F]_n) x (u : 'cV[F]_m) :
    linear_outputs C (nseq (size C) 0) x u = [seq (r *m x) 0 0 | r <- C].
  Proof. rewrite /linear_outputs. elim: C => //= r C ->. by rewrite mul0mx addr0. Qed.

  (** What discretize returns. *)
  Lemma discretize_ok s y t meth d :
    l_type s = Continuous -> l_sys s = Some y -> c2d y t meth = Ok d ->
    exists s', discretize struct_ok c2d t meth s = Ok s' /\ l_type s' = Discrete
      /\ l_sys s' = Some (mkSys (sA d) (sB d) (sC d) (nseq (size (sC d)) 0))
      /\ (forall x u q, lin_rhs (par:=par) s' x u q = sA d *m x + sB d *m u)
      /\ (forall x u q, lin_meas s' x u q = [seq (r *m x) 0 0 | r <- sC d]).
  Proof.
    move=> Ht Hs Hd. rewrite /discretize Hs Ht Hd /= setup_C //=.
    eexists. split; first by []. do 2 (split; first by []). split.
    - move=> x u q. by rewrite lin_rhs_rows.
    - move=> x u q. by rewrite lin_meas_rows -(zip_nseq0 _ _ u).
  Qed.

  Lemma hist_type t (h : seq (lop F n m par)) : l_type (lhist struct_ok pinv t h) = t.
  Proof.
    rewrite /lhist. have : l_type (lin_init F n m par t) = t by [].
    elim: h (lin_init F n m par t) => //= o h IH s H. apply: IH. rewrite -{}H.
    case: o => [es|nm es|A B C D|x u] /=.
    - rewrite /lin_set_rhs. case: ifP => // _. by case: (~~ _).
    - rewrite /lin_set_meas. case: ifP => // _. by case: (~~ _).
    - rewrite /lin_setup. case: (y_meas n m par C D) => // r.
      have F2 s' : l_type (fst (finish struct_ok s')) = l_type s'.
      { rewrite /finish. case: ifP => // _. case: ifP => // _. case: (rev _) => // a l. by case: ifP. }
      have K s' : l_type (fst match x_next n m par A B with
                    | Ok xn => match (match xn with None => Ok s' | Some es => lin_set_rhs [seq Some e | e <- es] s' end) with
                               | Ok s2 => if setup_done s2 then (s2, Err ExcKey) else finish struct_ok s2
                               | Err e => (s', Err e) end
                    | Err e => (s', Err e) end) = l_type s'.
      { case: (x_next n m par A B) => // -[es|] /=.
        - rewrite /lin_set_rhs all_some. case: (~~ _) => //=. case: ifP => // _; by rewrite F2.
        - case: ifP => // _; by rewrite F2. }
      case: r => [es|] /=; last exact: K.
      rewrite /lin_set_meas all_some. case: (~~ _) => //=. exact: K.
    - by have [] := steady_frozen pinv x u s.
  Qed.

  (** C46: exactly when the discretised model measures the same numbers as the original one: its
      feed-through is 0 and its measurement equation has no offset (for a discretisation method that
      leaves C and D alone; q: values of the parameters). *)
  Theorem C46_kept_iff : forall (h : seq (lop F n m par)) y t meth d,
    let s := lhist struct_ok pinv Continuous h in
    l_sys s = Some y -> keeps_outputs c2d meth -> c2d y t meth = Ok d ->
    exists s', discretize struct_ok c2d t meth s = Ok s' /\ l_type s' = Discrete
      /\ (forall x u q, lin_rhs s' x u q = sA d *m x + sB d *m u)
      /\ (forall q, (forall x u, lin_meas s' x u q = lin_meas s x u q) <->
                    ((forall r, r \in sD y -> r = 0) /\ lin_meas s 0 0 q = nseq (size (sC y)) 0)).
  Proof.
    move=> h y t meth d s Hs Hk Hd.
    have [s' [E [Et [_ [Er Em]]]]] := discretize_ok (hist_type Continuous h) Hs Hd.
    exists s'. split; first exact: E. split; first exact: Et. split; first exact: Er.
    move=> q. have [HC _] := Hk _ _ _ Hd. have [_ Hy] := hist_inv Hs.
    rewrite -/s in Hy. rewrite /lin_meas -/(outs s) {2}Hy /= size_map. split.
    - move=> H. move: {H}(fun x u => etrans (esym (Em x u q)) (H x u)). rewrite HC Hy /=.
      elim: (outs s) => //= e l IH H.
      have H0 : forall x u, [seq (r *m x) 0 0 | r <- [seq ax e | e <- l]] = [seq ev e x u q | e <- l].
      { move=> x u. have := H x u. by case. }
      have [I1 I2] := IH H0.
      have He : forall x u, (ax e *m x) 0 0 = ev e x u q by move=> x u; have := H x u => -[].
      have Hz : a0 e q = 0.
      { have := He 0 0. by rewrite /ev !mulmx0 !mxE addr0 add0r => <-. }
      split.
      + move=> r. rewrite in_cons => /orP[/eqP->|]; last exact: I1.
        apply/rowP => j. have := He 0 (delta_mx j 0). rewrite /ev mulmx0 Hz addr0 add0r -colE !mxE.
        by [].
      + by rewrite /ev !mulmx0 !mxE Hz !addr0 I2.
    - move=> [H1 H2] x u. rewrite -/(lin_meas s' x u q) Em HC Hy /=.
      move: H1 H2. rewrite Hy /=. elim: (outs s) => //= e l IH H1 [H2 H3].
      rewrite IH //; last by move=> r Hr; apply: H1; rewrite in_cons Hr orbT.
      congr (_ :: _). rewrite /ev.
      have -> : au e = 0 by apply: H1; rewrite in_cons eqxx.
      have -> : a0 e q = 0 by move: H2; rewrite /ev !mulmx0 !mxE !add0r.
      by rewrite mul0mx !addr0.
  Qed.

  (** C46 (partial): without feed-through and offset the measurement equation is kept. *)
  Theorem C46_discretize_partial : forall (h : seq (lop F n m par)) y t meth d,
    let s := lhist struct_ok pinv Continuous h in
    l_sys s = Some y -> keeps_outputs c2d meth -> c2d y t meth = Ok d ->
    (forall r, r \in sD y -> r = 0) ->
    (forall q, lin_meas s 0 0 q = nseq (size (sC y)) 0) ->
    exists s', discretize struct_ok c2d t meth s = Ok s' /\ l_type s' = Discrete
      /\ (forall x u q, lin_rhs s' x u q = sA d *m x + sB d *m u)
      /\ (forall x u q, lin_meas s' x u q = lin_meas s x u q).
  Proof.
    move=> h y t meth d s Hs Hk Hd HD H0.
    have [s' [E [Et [Er Em]]]] := C46_kept_iff Hs Hk Hd.
    exists s'. do 3 (split; first by []). move=> x u q. apply: (proj2 (Em q)). by split.
  Qed.
End C46.
Print Assumptions C46_kept_iff.
Print Assumptions C46_discretize_partial.

(** C46 (refuted): over every field there is a model with one state, one input and one measurement
    y = x + u whose discretisation, by every method that leaves C and D alone, measures something else. *)
Theorem C46_feedthrough_refuted : forall (F : realFieldType) (struct_ok : seq string -> bool) pinv (c2d : sys F 1 1 -> F -> string -> res (sys F 1 1)) t meth d,
  (forall l, List.NoDup l -> struct_ok l) ->
  let h : seq (lop F 1 1 unit) :=
    [:: LSetup (Some (of_mx (1%:M : 'M[F]_1))) (Some (of_mx (1%:M : 'M[F]_1))) (Some (of_rows [:: (1%:M : 'rV[F]_1)])) (Some (of_rows [:: (1%:M : 'rV[F]_1)]))] in
  let y : sys F 1 1 := mkSys 1%:M 1%:M [:: 1%:M] [:: 1%:M] in
  let s := lhist struct_ok pinv Continuous h in
  l_sys s = Some y /\
  (keeps_outputs c2d meth -> c2d y t meth = Ok d ->
   exists s' x u, discretize struct_ok c2d t meth s = Ok s' /\ lin_meas s' x u tt <> lin_meas s x u tt).
Proof.
  move=> F ok pinv c2d t meth d Hok h y s.
  have Hs : l_sys s = Some y by rewrite /s /lhist /= setup_CD.
  split; first exact: Hs. move=> Hk Hd.
  have [s' [E [_ [_ Em]]]] := C46_kept_iff Hok Hs Hk Hd.
  exists s', 0, 1%:M. split; first exact: E.
  have [s2 [E2 [_ [_ [_ Em2]]]]] := discretize_ok Hok (hist_type ok pinv Continuous h) Hs Hd.
  have Ess : s' = s2 by move: E2; rewrite E => -[].
  rewrite Ess Em2.
  have [HC _] := Hk _ _ _ Hd. rewrite HC /s /lhist /= setup_CD //=.
  rewrite lin_meas_rows /= !mulmx0 !mul1mx add0r !mxE /= => -[] /eqP.
  by rewrite eq_sym oner_eq0.
Qed.
Print Assumptions C46_feedthrough_refuted.

(** Non-vacuous for C46_discretize_partial: y = x has feed-through 0. *)
Example C46_nonvacuous (F : realFieldType) :
  let h : seq (lop F 1 1 unit) :=
    [:: LSetup (Some (of_mx (1%:M : 'M[F]_1))) (Some (of_mx (1%:M : 'M[F]_1))) (Some (of_rows [:: (1%:M : 'rV[F]_1)])) None] in
  let s := lhist (fun=> true) (fun=> 0) Continuous h in
  let c2d (y : sys F 1 1) (t : F) (_ : string) := Ok (mkSys (1%:M + t *: sA y) (t *: sB y) (sC y) (sD y)) in
  exists y d, l_sys s = Some y /\ keeps_outputs c2d "euler" /\ c2d y 1 "euler"%string = Ok d
    /\ (forall r, r \in sD y -> r = 0) /\ (forall q, lin_meas s 0 0 q = nseq (size (sC y)) 0).
Proof.
  move=> h s c2d. have E : s = fst (lin_setup (fun=> true) (Some (of_mx (1%:M : 'M[F]_1))) (Some (of_mx (1%:M : 'M[F]_1))) (Some (of_rows [:: (1%:M : 'rV[F]_1)])) None (lin_init F 1 1 unit Continuous)) by [].
  rewrite setup_C // in E. exists (mkSys 1%:M 1%:M [:: 1%:M] [:: 0]). eexists.
  split; first by rewrite E. split; first by move=> ? ? ? [<-].
  split; first by []. split.
  - move=> r. by rewrite inE => /eqP.
  - move=> q. by rewrite E lin_meas_rows /= !mulmx0 !mxE addr0.
Qed.

Section C68.
  Variable F : realFieldType.
  Variables n m : nat.
  Variable par : Type.
  Variable struct_ok : seq string -> bool.
  Hypothesis struct_uniq : forall l, List.NoDup l -> struct_ok l.

  Lemma all_zero_nseq (D : seq 'rV[F]_m) : all (fun r => r == 0) D = (D == nseq (size D) 0).
  Proof. elim: D => //= r D ->. by rewrite eqseq_cons. Qed.

  (** C68: linearising a set-up model without algebraic states at a point where all four Jacobians
      are numbers gives a linear model of the same type with exactly these matrices and
      x+ = A x + B u, y = C x + D u - unless the measurement is state feedback plus a non-zero
      feed-through. *)
  Theorem C68_linearize_partial : forall mo (y : sys F n m),
    n_setup mo = true -> n_z mo = 0%N -> n_sys mo = Some y -> size (sC y) = size (sD y) ->
    (sC y <> identity_rows F n \/ forall r, r \in sD y -> r = 0) ->
    exists s : lin F n m par, linearize par struct_ok mo = Ok s /\ l_type s = n_type mo /\ l_sys s = Some y
      /\ forall x u q, lin_rhs s x u q = sA y *m x + sB y *m u
                      /\ lin_meas s x u q = linear_outputs (sC y) (sD y) x u.
  Proof.
    move=> mo [A B C D] H1 H2 H3 /= Hsz Hc. rewrite /linearize H1 H2 /= H3 /=.
    have Hid : size (identity_rows F n) = n by rewrite size_map size_enum_ord.
    case: (altP (C =P identity_rows F n)) => [EC|NC].
    - have HD : forall r, r \in D -> r = 0 by case: Hc.
      subst C. move: (erefl (identity_rows F n)) => EC.
      have HD' : all (fun r => r == 0) D by apply/allP => r /HD /eqP.
      rewrite -Hsz Hid eqxx HD' /=. rewrite setup_AB //=.
      have ED : D = nseq n 0 by move: HD'; rewrite all_zero_nseq -Hsz Hid => /eqP.
      eexists. split; first by []. split; first by []. split; first by rewrite /= ED.
      move=> x u q. split; first by rewrite lin_rhs_rows.
      rewrite /state_feedback identity_meas lin_meas_rows. by rewrite ED.
    - case: ifP => HD.
      + move/andP: HD => [/eqP HD1 HD2].
        have ED : D = nseq (size C) 0 by move: HD2; rewrite all_zero_nseq Hsz => /eqP.
        rewrite setup_C //=. eexists. split; first by []. split; first by []. split; first by rewrite /= -ED.
        move=> x u q. split; first by rewrite lin_rhs_rows.
        by rewrite lin_meas_rows -ED.
      + rewrite setup_CD //=. eexists. do 3 (split; first by []).
        move=> x u q. split; first by rewrite lin_rhs_rows. by rewrite lin_meas_rows.
  Qed.

  (** C68 (refuted): with y = x + D u, D <> 0, linearize raises TypeError. *)
  Theorem C68_feedthrough_refuted : forall mo (y : sys F n m),
    n_setup mo = true -> n_z mo = 0%N -> n_sys mo = Some y ->
    sC y = identity_rows F n -> (exists r, r \in sD y /\ r <> 0) ->
    linearize par struct_ok mo = Err ExcType.
  Proof.
    move=> mo [A B C D] H1 H2 H3 /= EC [r [Hr Hr0]]. rewrite /linearize H1 H2 /= H3 /= EC eqxx.
    case: ifP => //= /andP[_ /allP H]. by have := H r Hr => /eqP.
  Qed.
End C68.
Print Assumptions C68_linearize_partial.
Print Assumptions C68_feedthrough_refuted.

(** Both cases of C68 occur: y = x, y = 2 x + u; and y = x + u. *)
Example C68_nonvacuous (F : realFieldType) :
  (exists s, linearize unit (fun=> true)
     (mkNl true Discrete 0 (Some (mkSys (1%:M : 'M[F]_1) 1%:M [:: (2%:R)%:M] [:: 1%:M]))) = Ok s) /\
  linearize unit (fun=> true)
     (mkNl true Discrete 0 (Some (mkSys (1%:M : 'M[F]_1) (1%:M : 'M[F]_1) (identity_rows F 1) [:: 1%:M]))) = Err ExcType.
Proof.
  split.
  - have [|s [E _]] := @C68_linearize_partial F 1 1 unit (fun=> true) (fun _ _ => isT)
      (mkNl true Discrete 0 (Some (mkSys (1%:M : 'M[F]_1) 1%:M [:: (2%:R)%:M] [:: 1%:M]))) _ erefl erefl erefl erefl.
    { left => /(congr1 (fun l => nth 0 l 0)) /=.
      rewrite /identity_rows (nth_map ord0) ?size_enum_ord // => /rowP/(_ ord0).
      rewrite !mxE !ord1 !eqxx /= mulr1n => /eqP.
      by rewrite -subr_eq0 -{2}[1]/(1%:R) -natrB //= oner_eq0. }
    by exists s.
  - apply: (C68_feedthrough_refuted _ _ (y := mkSys (1%:M : 'M[F]_1) (1%:M : 'M[F]_1) (identity_rows F 1) [:: 1%:M])) => //.
    exists 1%:M. split; first by rewrite inE. move=> H. by have := @matrix_nonzero1 F 0; rewrite H eqxx.
Qed.

Section C47.
  Variable F : realFieldType.
  Variables n m : nat.
  Variable par : Type.
  Variable pinv : 'M[F]_(n,m) -> 'M[F]_(m,n).
  Notation lin := (lin F n m par).

  Lemma col_of_seq k (l : seq F) (v : 'cV[F]_k) : (forall i : 'I_k, nth 0 l i = v i 0) -> col_of k l = v.
  Proof. move=> H. by apply/colP => i; rewrite mxE H. Qed.

  Lemma steady_iff (A : 'M[F]_n) (B : 'M[F]_(n,m)) x u : steady A B x u <-> (1%:M - A) *m x = B *m u.
  Proof.
    rewrite /steady mulmxBl mul1mx. split.
    - move=> {1}->. by rewrite addrAC subrr add0r.
    - move=> <-. by rewrite addrC subrK.
  Qed.

  Lemma rank_unit (A : 'M[F]_n) : (\rank A == n) = (A \in unitmx).
  Proof. by rewrite -row_free_unit /row_free. Qed.

  (** C47 (partial): for a given input, when both A and I - A are invertible the returned state is
      the one steady state for that input, and both are stored. *)
  Theorem C47_from_input_partial : forall (s : lin) y (us : seq F),
    l_type s = Discrete -> l_sys s = Some y -> size us = m ->
    sA y \in unitmx -> 1%:M - sA y \in unitmx ->
    exists x, snd (get_steady_state pinv (SNone F) (SArr us) s) = Ok (RX _ x)
      /\ steady (sA y) (sB y) x (col_of m us)
      /\ (forall x', steady (sA y) (sB y) x' (col_of m us) -> x' = x)
      /\ l_ss (fst (get_steady_state pinv (SNone F) (SArr us) s)) = Some (x, col_of m us).
  Proof.
    move=> s y us Ht Hs Hsz HA HI. rewrite /get_steady_state Hs Ht /= rank_unit HA /np_inv HI Hsz eqxx /=.
    eexists. split; first by []. split; first by apply/steady_iff; rewrite !mulmxA mulmxV // mul1mx.
    split; last by []. move=> x' /steady_iff H. by rewrite -mulmxA -H mulmxA mulVmx // mul1mx.
  Qed.

  (** ... and exactly then: in all other cases an exception is raised. *)
  Theorem C47_from_input_iff : forall (s : lin) y (us : seq F),
    l_type s = Discrete -> l_sys s = Some y -> size us = m ->
    ((exists r, snd (get_steady_state pinv (SNone F) (SArr us) s) = Ok r) <->
     (sA y \in unitmx /\ 1%:M - sA y \in unitmx)).
  Proof.
    move=> s y us Ht Hs Hsz. split.
    - rewrite /get_steady_state Hs Ht /= rank_unit. case: ifP => HA /=; last by case.
      rewrite /np_inv. case: ifP => HI //=. by case.
    - move=> [HA HI]. have [x [E _]] := C47_from_input_partial Ht Hs Hsz HA HI. by exists (RX _ x).
  Qed.

  (** C47 (partial): for a given state, B not square: if some input makes the state steady then the
      returned one does (pinv is a generalised inverse, B pinv(B) B = B, as numpy's). *)
  Theorem C47_from_state_partial : forall (s : lin) y (xs : seq F),
    l_type s = Discrete -> l_sys s = Some y -> size xs = n ->
    (exists u0, steady (sA y) (sB y) (col_of n xs) u0) ->
    n <> m -> sB y *m pinv (sB y) *m sB y = sB y ->
    exists u, snd (get_steady_state pinv (SArr xs) (SNone F) s) = Ok (RU _ u)
      /\ steady (sA y) (sB y) (col_of n xs) u
      /\ l_ss (fst (get_steady_state pinv (SArr xs) (SNone F) s)) = Some (col_of n xs, u).
  Proof.
    move=> s y xs Ht Hs Hsz [u0 H0] /eqP Hnm HB. rewrite /get_steady_state Hs Ht /= Hnm Hsz eqxx /=.
    eexists. split; first by []. split; last by [].
    move/steady_iff: H0 => H0. apply/steady_iff. by rewrite -mulmxA H0 !mulmxA HB.
  Qed.
End C47.

(** C47 (partial): B square and invertible: the returned input is the one that makes the state steady. *)
Theorem C47_from_state_square_partial : forall (F : realFieldType) n par pinv (s : lin F n n par) y (xs : seq F),
  l_type s = Discrete -> l_sys s = Some y -> size xs = n -> sB y \in unitmx ->
  exists u, snd (get_steady_state pinv (SArr xs) (SNone F) s) = Ok (RU _ u)
    /\ steady (sA y) (sB y) (col_of n xs) u
    /\ (forall u', steady (sA y) (sB y) (col_of n xs) u' -> u' = u).
Proof.
  move=> F n par pinv s y xs Ht Hs Hsz HB.
  rewrite /get_steady_state Hs Ht /= eqxx /= /inv_sq.
  case: eqP => // e. rewrite !castmx_id /np_inv HB /= castmx_id Hsz eqxx /=.
  eexists. split; first by []. split.
  - apply/steady_iff. by rewrite !mulmxA mulmxV // mul1mx.
  - move=> u' /steady_iff H. by rewrite -mulmxA H mulmxA mulVmx // mul1mx.
Qed.

(** C47 (refuted), four ways: (1) x+ = 0 x + u has exactly one steady state for every input but
    ValueError is raised; (2) a state that is not steady for any input is silently given an input (here
    x+ = x + (1,0)' ... with two states and one input); (3) a square singular B raises although the
    state is steady; (4) a continuous model is always refused. *)
Theorem C47_zero_dynamics_refuted : forall (F : realFieldType) par pinv (s : lin F 1 1 par) y (us : seq F),
  l_type s = Discrete -> l_sys s = Some y -> sA y = 0 -> size us = 1%N ->
  unique_steady (sA y) (sB y) (col_of 1 us) /\ snd (get_steady_state pinv (SNone F) (SArr us) s) = Err ExcValue.
Proof.
  move=> F par pinv s y us Ht Hs HA Hsz. split.
  - exists (sB y *m col_of 1 us). rewrite /steady HA mul0mx add0r. split; first by [].
    move=> x' ->. by rewrite mul0mx add0r.
  - by rewrite /get_steady_state Hs Ht /= HA mxrank0 /=.
Qed.

Theorem C47_not_steady_refuted : forall (F : realFieldType) par pinv (s : lin F 2 1 par) y,
  l_type s = Discrete -> l_sys s = Some y -> sA y = 0 -> sB y = delta_mx 0 0 ->
  exists u, snd (get_steady_state pinv (SArr [:: 0; 1]) (SNone F) s) = Ok (RU _ u)
    /\ ~ steady (sA y) (sB y) (col_of 2 [:: 0; 1]) u.
Proof.
  move=> F par pinv s y Ht Hs HA HB. rewrite /get_steady_state Hs Ht /=.
  eexists. split; first by []. rewrite /steady HA HB mul0mx add0r.
  move/colP/(_ (lift ord0 ord0)). rewrite !mxE /= big_ord_recl big_ord0 !mxE /= mul0r addr0 => /eqP.
  by rewrite oner_eq0.
Qed.

Theorem C47_singular_input_refuted : forall (F : realFieldType) par pinv (s : lin F 1 1 par) y,
  l_type s = Discrete -> l_sys s = Some y -> sA y = 1%:M -> sB y = 0 -> forall xs, size xs = 1%N ->
  (forall u, steady (sA y) (sB y) (col_of 1 xs) u)
  /\ snd (get_steady_state pinv (SArr xs) (SNone F) s) = Err ExcValue.
Proof.
  move=> F par pinv s y Ht Hs HA HB xs Hsz. split.
  - move=> u. by rewrite /steady HA HB mul1mx mul0mx addr0.
  - rewrite /get_steady_state Hs Ht /= /inv_sq. case: eqP => // e.
    by rewrite HB castmx_const /np_inv unitmxE det0 unitr0.
Qed.

Theorem C47_continuous_refused : forall (F : realFieldType) n m par pinv (s : lin F n m par) xa ua,
  l_type s = Continuous -> snd (get_steady_state pinv xa ua s) = Err ExcAssertion.
Proof. move=> F n m par pinv s xa ua Ht. rewrite /get_steady_state. case: (l_sys s) => //= y. by rewrite Ht. Qed.
Print Assumptions C47_from_input_partial.
Print Assumptions C47_from_input_iff.
Print Assumptions C47_from_state_partial.
Print Assumptions C47_from_state_square_partial.
Print Assumptions C47_zero_dynamics_refuted.
Print Assumptions C47_not_steady_refuted.
Print Assumptions C47_singular_input_refuted.

(** The models of the C47 theorems exist: every (A,B) is the system of a set-up discrete model. *)
Example C47_nonvacuous (F : realFieldType) n m (A : 'M[F]_n) (B : 'M[F]_(n,m)) :
  let s := lhist (fun=> true) (fun=> 0) Discrete
             [:: LSetup (Some (of_mx A)) (Some (of_mx B)) None None : lop F n m unit] in
  l_type s = Discrete /\ exists y, l_sys s = Some y /\ sA y = A /\ sB y = B.
Proof. rewrite /lhist /= setup_AB //=. split; first by []. by eexists. Qed.

Example C47_nonvacuous_invertible (F : realFieldType) :
  let A : 'M[F]_1 := (2%:R)%:M in A \in unitmx /\ 1%:M - A \in unitmx.
Proof.
  rewrite /= !unitmxE -raddfB /= !det_scalar expr1 expr1 -{1}[1]/(1%:R) !unitfE. split; first by rewrite Num.Theory.pnatr_eq0.
  have -> : 1 - 2%:R = - 1 :> F by rewrite [2%:R](natrD _ 1 1) opprD addrA subrr add0r.
  by rewrite oppr_eq0 oner_eq0.
Qed.
