(** * Lemmas for C46, C47, C68, C69 (linear models). *)
From Verif Require Import Base.
From mathcomp Require Import all_ssreflect all_algebra.
From Verif Require Import LqrModel LinModel.
Set Implicit Arguments.
Unset Strict Implicit.
Unset Printing Implicit Defensive.
Import GRing.Theory.
Local Open Scope ring_scope.

Section Arr.
  Variable F : realFieldType.
  Lemma rows_of_of_rows c (l : seq 'rV[F]_c) : rows_of c (of_rows l) = l.
  Proof.
    rewrite /rows_of /of_rows /=.
    apply: (@eq_from_nth _ 0); rewrite size_map size_iota //.
    move=> i Hi. rewrite (nth_map 0%N) ?size_iota // nth_iota // add0n.
    by apply/rowP => j; rewrite mxE valK.
  Qed.
  Lemma mx_of_of_mx r c (M : 'M[F]_(r,c)) : mx_of r c (of_mx M) = M.
  Proof. by apply/matrixP => i j; rewrite mxE /= !valK. Qed.
  Lemma size_rows_of c (a : arr F) : size (rows_of c a) = nr a.
  Proof. by rewrite size_map size_iota. Qed.
End Arr.

Section Lin.
  Variable F : realFieldType.
  Variables n m : nat.
  Variable par : Type.
  Variable struct_ok : seq string -> bool.
  Hypothesis struct_uniq : forall l, List.NoDup l -> struct_ok l.
  Lemma nd1 (a : string) : List.NoDup [:: a]. Proof. by constructor; [case|constructor]. Qed.
  Notation lin := (lin F n m par).
  Notation aff := (aff F n m par).

  Definition rows_rhs (A : 'M[F]_n) (B : 'M[F]_(n,m)) : seq aff :=
    [seq lin_aff par (row i A) (row i B) | i <- enum 'I_n].
  Definition rows_meas (C : seq 'rV[F]_n) (D : seq 'rV[F]_m) : seq aff :=
    [seq lin_aff par rr.1 rr.2 | rr <- zip C D].

  Lemma pmap_some {T} (l : seq T) : pmap id [seq Some e | e <- l] = l.
  Proof. by elim: l => //= a l ->. Qed.
  Lemma all_some {T} (l : seq T) : all isSome [seq Some e | e <- l].
  Proof. by elim: l. Qed.

  Lemma size_rows_rhs A B : size (rows_rhs A B) = n.
  Proof. by rewrite size_map size_enum_ord. Qed.
  Lemma nth_rows_rhs A B d (i : 'I_n) : nth d (rows_rhs A B) i = lin_aff par (row i A) (row i B).
  Proof. by rewrite (nth_map i) ?size_enum_ord // nth_ord_enum. Qed.

  Lemma matrices_rows A B C D : size C = size D ->
    matrices (rows_rhs A B) (rows_meas C D) = mkSys A B C D.
  Proof.
    move=> S. rewrite /matrices. congr mkSys.
    - by apply/matrixP => i j; rewrite mxE nth_rows_rhs /= mxE.
    - by apply/matrixP => i j; rewrite mxE nth_rows_rhs /= mxE.
    - rewrite -map_comp -[RHS](@unzip1_zip _ _ C D) ?S //.
    - rewrite -map_comp -[RHS](@unzip2_zip _ _ C D) ?S //.
  Qed.

  Lemma rows_meas_zero C : rows_meas C (nseq (size C) 0) = [seq lin_aff par r 0 | r <- C].
  Proof. by rewrite /rows_meas; elim: C => //= a l ->. Qed.

  Lemma x_next_ok (A : 'M[F]_n) (B : 'M[F]_(n,m)) : x_next n m par (Some (of_mx A)) (Some (of_mx B)) = Ok (Some (rows_rhs A B)).
  Proof. by rewrite /x_next; cbn [nr nc of_mx]; rewrite !eqxx /= !mx_of_of_mx. Qed.

  (** setup with A, B, C on a fresh model. *)
  Lemma setup_C t A B C :
    lin_setup struct_ok (Some (of_mx A)) (Some (of_mx B)) (Some (of_rows C)) None (lin_init F n m par t)
    = (mkLin t [:: rows_rhs A B] [:: ("y"%string, rows_meas C (nseq (size C) 0))]
         (Some (mkSys A B C (nseq (size C) 0))) None, Ok tt).
  Proof.
    rewrite /lin_setup [y_meas _ _ _ _ _]/y_meas /= eqxx rows_of_of_rows -rows_meas_zero.
    rewrite /lin_set_meas all_some pmap_some. cbn -[x_next finish].
    rewrite x_next_ok /lin_set_rhs all_some pmap_some. cbn -[finish].
    rewrite /finish /= !(struct_uniq (nd1 _)) /= size_rows_rhs eqxx cats0.
    by rewrite matrices_rows // size_nseq.
  Qed.

  (** setup with A, B, C, D on a fresh model. *)
  Lemma setup_CD t A B C D : size C = size D ->
    lin_setup struct_ok (Some (of_mx A)) (Some (of_mx B)) (Some (of_rows C)) (Some (of_rows D)) (lin_init F n m par t)
    = (mkLin t [:: rows_rhs A B] [:: ("y"%string, rows_meas C D)]
         (Some (mkSys A B C D)) None, Ok tt).
  Proof.
    move=> S. rewrite /lin_setup [y_meas _ _ _ _ _]/y_meas. rewrite /= !eqxx /= S eqxx !rows_of_of_rows.
    rewrite -/(rows_meas C D).
    rewrite /lin_set_meas all_some pmap_some. cbn -[x_next finish].
    rewrite x_next_ok /lin_set_rhs all_some pmap_some. cbn -[finish].
    rewrite /finish /= !(struct_uniq (nd1 _)) /= size_rows_rhs eqxx cats0.
    by rewrite matrices_rows.
  Qed.

  Lemma identity_meas : [seq lin_aff par (delta_mx 0 i : 'rV[F]_n) (0 : 'rV[F]_m) | i <- enum 'I_n]
                        = rows_meas (identity_rows F n) (nseq n 0).
  Proof.
    have E : size (identity_rows F n) = n by rewrite size_map size_enum_ord.
    have <- : nseq (size (identity_rows F n)) (0 : 'rV[F]_m) = nseq n 0 by rewrite E.
    rewrite rows_meas_zero /identity_rows -[RHS]map_comp. reflexivity.
  Qed.

  (** setup with A, B only. *)
  Lemma setup_AB t A B :
    lin_setup struct_ok (Some (of_mx A)) (Some (of_mx B)) None None (lin_init F n m par t)
    = (mkLin t [:: rows_rhs A B] [:: state_feedback F n m par]
         (Some (mkSys A B (identity_rows F n) (nseq n 0))) None, Ok tt).
  Proof.
    rewrite /lin_setup /=. rewrite x_next_ok /lin_set_rhs all_some pmap_some. cbn -[finish].
    rewrite /finish /= !(struct_uniq (nd1 _)) /= size_rows_rhs eqxx cats0.
    rewrite identity_meas matrices_rows // size_map size_enum_ord size_nseq //.
  Qed.

  Lemma ev_row (A : 'M[F]_n) (B : 'M[F]_(n,m)) (i : 'I_n) x u q :
    ev (lin_aff par (row i A) (row i B)) x u q = (A *m x + B *m u) i 0.
  Proof. by rewrite /ev /= addr0 -!row_mul !mxE. Qed.

  Lemma lin_rhs_rows t A B me sy ss x u q :
    lin_rhs (mkLin t [:: rows_rhs A B] me sy ss) x u q = A *m x + B *m u.
  Proof. by apply/colP => i; rewrite mxE /= nth_rows_rhs ev_row. Qed.

  Lemma lin_meas_rows t rh nm C D sy ss x u q :
    lin_meas (mkLin t rh [:: (nm, rows_meas C D)] sy ss) x u q
    = [seq (rr.1 *m x + rr.2 *m u) 0 0 | rr <- zip C D].
  Proof. rewrite /lin_meas /= cats0 -map_comp. apply: eq_map => rr. by rewrite /= /ev /= addr0. Qed.
End Lin.
