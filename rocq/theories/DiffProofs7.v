(** * Positions of entries and the constraint qualification flag. *)
From Verif Require Import Base.
From mathcomp Require Import all_ssreflect all_algebra.
From Verif Require Import LinModel DiffModel DiffSpec DiffProofs DiffProofs2 DiffProofs3 DiffProofs4 DiffProofs5 DiffProofs6.
Set Implicit Arguments.
Unset Strict Implicit.
Unset Printing Implicit Defensive.
Import GRing.Theory Num.Theory.
Local Open Scope ring_scope.

Lemma count_fidx_rank (f g : nat -> bool) n i : (i < n)%N -> f i ->
  let det := [seq j <- iota 0 n | f j] in
  count (fun i' => g (nth 0%N det i')) (iota 0 (count f (iota 0 i))) = count (fun j => f j && g j) (iota 0 i).
Proof.
  move=> Hi Hf det.
  have Hn: det = [seq j <- iota 0 i | f j] ++ [seq j <- iota i (n - i) | f j].
    by rewrite /det -filter_cat -{2}(add0n i) -iotaD subnKC // ltnW.
  have -> : count (fun j => f j && g j) (iota 0 i) = count g [seq j <- iota 0 i | f j].
    by rewrite count_filter; apply: eq_count => j /=; rewrite andbC.
  have Hle: (size [seq j <- iota 0 i | f j] <= size det)%N by rewrite Hn size_cat leq_addr.
  have E := @count_iota_nth _ 0%N g det _ Hle; rewrite {2}Hn take_size_cat // in E.
  by rewrite size_filter in E.
Qed.

Section Pos.
  Variable F : realFieldType.
  Variable fn : nat -> F -> F.
  Variable dfn : nat -> nat.
  Variable lin : linsolver -> arr F -> arr F -> option (psens F).
  Variables (P : nlp F) (b : bnd F) (W : wf P b).
  Let nx := size (n_x P).
  Let ng := size (n_g P).
  Let np := size (n_p P).
  Variables (x lg lx g p : seq F).
  Hypotheses (Sx : size x = size (n_x P)) (Sl : size lx = size (n_x P)) (Sp : size p = size (n_p P)).
  Variables (st : settings F) (t t' : status F) (Mx Ml : oarr F).
  Let d := construct P b.
  Let sol := SolDict (mkSol (Some x) (Some lg) (Some lx) (Some g)).
  Hypothesis Hd : differentiate fn dfn lin d st t sol (PCol p) = (t', Ok (Mx, Ml)).
  Let actg := act_g (s_tol st) b g.
  Let actx := act_x (s_tol st) b x.

  Lemma det_ux : det_idx P (n_x P) = [seq i <- iota 0 nx | ux P i]. Proof. by []. Qed.
  Lemma det_up : det_idx P (n_p P) = [seq i <- iota 0 np | up P i]. Proof. by []. Qed.

  Lemma no_undet v : size (undet_idx P v) = 0%N -> forall i, (i < size v)%N -> used P (nth (usym 0) v i).
  Proof.
    move/size0nil => H i Hi; apply/negPn/negP => Hn.
    have : i \in undet_idx P v by rewrite mem_filter Hn mem_iota.
    by rewrite H.
  Qed.

  Lemma rank_all (f : nat -> bool) n i : (forall j, (j < n)%N -> f j) -> (i <= n)%N -> rank f i = i.
  Proof.
    move=> H Hi; rewrite /rank -[RHS](size_iota 0 i); apply/eqP; rewrite -all_count.
    by apply/allP => j; rewrite mem_iota /= add0n => Hj; apply: H; apply: leq_trans Hj Hi.
  Qed.

  Definition table (qs : sens F) (i j : nat) : option F :=
    match qs with Sol (P2 M) => Some (ent M i j) | Sol (P1 _) => None | Nans _ _ => None end.

  Lemma map_sens_table d' qs act dx dl : map_sens d' qs act = Ok (dx, dl) ->
    (forall i j, oent dx i j = table qs i j)
    /\ (forall r j, oent dl r j = if r \in act then table qs (size (n_x (d_nlp d')) + index r act) j else Some 0)
    /\ (exists M, qs = Sol (P2 M)) \/ (exists r c, qs = Nans F r c)
       /\ (forall i j, oent dx i j = table qs i j)
       /\ (forall r j, oent dl r j = if r \in act then table qs (size (n_x (d_nlp d')) + index r act) j else Some 0).
  Proof.
    case: qs => [[M|v]|r c] //=; rewrite /py_assert; case: (size act == _)%B => //= -[<- <-] /=.
    - by left; split=> //; split=> //; exists M.
    - by right; split=> //; exists r, c.
  Qed.

  Lemma solve_lse_solved A B s : forall qs ok, (qs, ok) = solve_lse lin A B s ->
    (ok = true -> exists k q1, lin k A (neg B) = Some q1 /\ qs = Sol q1) /\ (ok = false -> exists r c, qs = Nans F r c).
  Proof.
    move=> qs ok; rewrite /solve_lse; case: (parse_solver s) => [k|[-> ->]]; last by split=> // _; exists (nr A), (nc B).
    case El: (lin k A (neg B)) => [q1|] [-> ->]; split=> // _.
      by exists k, q1.
    by exists (nr A), (nc B).
  Qed.

  Lemma lse_two A B s fb qs ok :
    (qs, ok) = (let (q1, ok1) := solve_lse lin A B s in
                if ~~ ok1 && fb then solve_lse lin A B "lstsq" else (q1, ok1)) ->
    (ok = true -> exists k q1, lin k A (neg B) = Some q1 /\ qs = Sol q1) /\ (ok = false -> exists r c, qs = Nans F r c).
  Proof.
    case E: (solve_lse lin A B s) => [q1 ok1]; case: ifP => _ H; first exact: (solve_lse_solved H).
    by apply: (@solve_lse_solved A B s); rewrite E.
  Qed.

  Lemma positions : exists S : nat -> nat -> option F,
    [/\ (t_solved t' -> exists k A B M, lin k A B = Some (P2 M) /\ forall i j, S i j = Some (ent M i j)),
        (t_solved t' = false -> forall i j, S i j = None),
        (forall i j, (i < nx)%N -> (j < np)%N ->
           oent Mx i j = if ux P i && up P j then S (rank (ux P) i) (rank (up P) j) else Some 0),
        (forall k j, (k < ng)%N -> (j < np)%N ->
           oent Ml k j = if actg k && up P j then S (rank (ux P) nx + rank actg k)%N (rank (up P) j) else Some 0)
      & (forall i j, (i < nx)%N -> (j < np)%N ->
           oent Ml (ng + i)%N j = if (ux P i && actx i) && up P j
             then S (rank (ux P) nx + (rank actg ng + rank (fun i => ux P i && actx i) i))%N (rank (up P) j) else Some 0)].
  Proof.
    have [q [p' [Hpr [Hlg Hlx] _ _ [qs [Hqs [dx [dl [Hms HE]]]]]]]] := diff_inv2 Hd.
    exists (table qs); split.
    - move=> Hs; have [/(_ Hs) [k [q1 [Hl E]]] _] := lse_two Hqs.
      have [[_ [_ [M HM]]]|[[r [c Hn]] _]] := map_sens_table Hms; last by rewrite Hn in E.
      rewrite HM in E; case: E => E; rewrite -E in Hl.
      by exists k, (redA fn dfn d (s_tol st) q p'), (neg (redB fn dfn d (s_tol st) q p')), M; rewrite HM.
    - by move=> Hs; have [_ /(_ Hs) [r [c ->]]] := lse_two Hqs.
    all: have [Hdx Hdl] : (forall i j, oent dx i j = table qs i j)
           /\ (forall r j, oent dl r j = if r \in active_cons d (s_tol st) q then table qs (size (n_x (d_nlp d)) + index r (active_cons d (s_tol st) q)) j else Some 0)
         by have [[? [? _]]|[_ [? ?]]] := map_sens_table Hms.
    all: move: Hpr HE Hdl Hlg Hlx; rewrite /expanded /d /construct.
    - case: ifP => Hred /=.
        move=> _ [-> _] _ _ _ i j Hi Hj /=.
        rewrite det_ux det_up !mem_filter !mem_iota /= !add0n Hi Hj !andbT.
        by case: ifP => // /andP[Hu Hv]; rewrite Hdx !index_filter_iota.
      move=> _ [-> _] _ _ _ i j Hi Hj; move/negbT: Hred; rewrite -eqn0Ngt addn_eq0 => /andP[/eqP Ux /eqP Up].
      have Hux k: (k < nx)%N -> ux P k by exact: no_undet.
      have Hup k: (k < np)%N -> up P k by exact: no_undet.
      have R1: rank (ux P) i = i by apply: (rank_all Hux); exact: ltnW.
      have R2: rank (up P) j = j by apply: (rank_all Hup); exact: ltnW.
      by rewrite R1 R2 Hux // Hup // Hdx.
    - case: ifP => Hred /=.
        rewrite /take_idx; case: ifP => //= Ax; case: ifP => //= Al; case: ifP => //= Ap.
        case: ifP => //= /eqP Hsp.
        rewrite /same_len; case: eqP => //= Hsg; case: eqP => //= Hsx [Eq Ep]; subst q p' => /=.
        move=> [_ ->]; set d' := mkDiff _ _ _; set q := mkPt _ _ _ _ => Hdl Hlg Hlx k j Hk Hj /=.
        have Hin: k \in iota 0 (size (n_g P)) by rewrite mem_iota.
        rewrite mem_cat index_cat Hin /= -[X in index X (iota _ _)](nth_iota 0%N 0 Hk) index_uniq ?size_iota ?iota_uniq //.
        rewrite Hdl (mem_act_g (d := d') (s_tol st) (q := q) Hsg) // det_up mem_filter mem_iota /= add0n Hj andbT.
        rewrite [act_g _ _ _ k](_ : _ = actg k) //; case Huj: (up P j) => /=; last by rewrite !andbF.
        rewrite !andbT; case Ha: (actg k) => //.
        rewrite (index_active (d := d') (tol := s_tol st) (q := q) Hsg Hsx) ?ltn_addr // /act_r ?Hk //.
        rewrite (index_filter_iota Hj Huj).
        congr (table qs (_ + _)%N _).
        * by rewrite size_map det_ux size_filter.
        * apply: eq_in_count => r; rewrite mem_iota /= add0n => Hr; by rewrite (ltn_trans Hr Hk).
      case: ifP => //= /eqP Hsp.
      rewrite /same_len; case: eqP => //= Hsg; case: eqP => //= Hsx [Eq Ep]; subst q p' => /=.
      move=> [_ ->]; set d' := mkDiff _ _ _; set q := mkPt _ _ _ _ => Hdl Hlg Hlx k j Hk Hj /=.
      move/negbT: Hred; rewrite -eqn0Ngt addn_eq0 => /andP[/eqP Ux /eqP Up].
      have Hux k': (k' < nx)%N -> ux P k' by exact: no_undet.
      have Hup k': (k' < np)%N -> up P k' by exact: no_undet.
      have R1: rank (ux P) nx = nx by apply: (rank_all Hux).
      have R2: rank (up P) j = j by apply: (rank_all Hup); exact: ltnW.
      rewrite R1 R2 Hup // andbT Hdl (mem_act_g (d := d') (s_tol st) (q := q) Hsg) // [act_g _ _ _ k](_ : _ = actg k) //; case Ha: (actg k) => //.
      rewrite (index_active (d := d') (tol := s_tol st) (q := q) Hsg Hsx) ?ltn_addr // /act_r ?Hk //.
      congr (table qs (_ + _)%N _).
      apply: eq_in_count => r; rewrite mem_iota /= add0n => Hr; by rewrite (ltn_trans Hr Hk).
    - case: ifP => Hred /=.
        rewrite /take_idx; case: ifP => //= Ax; case: ifP => //= Al; case: ifP => //= Ap.
        case: ifP => //= /eqP Hsp.
        rewrite /same_len; case: eqP => //= Hsg; case: eqP => //= Hsx [Eq Ep]; subst q p' => /=.
        move=> [_ ->]; set d' := mkDiff _ _ _; set q := mkPt _ _ _ _ => Hdl Hlg Hlx i j Hi Hj /=.
        have Hszx: size (n_x (d_nlp d')) = size (det_idx P (n_x P)) by rewrite size_map.
        rewrite mem_cat index_cat mem_iota /= add0n ltnNge leq_addr /= size_iota (addnC (size _) i).
        rewrite mem_map_addn index_map_addn {1}det_ux mem_filter mem_iota /= add0n Hi andbT.
        rewrite det_up mem_filter mem_iota /= add0n Hj andbT.
        case Hu: (ux P i) => //=; case Huj: (up P j) => /=; last by rewrite !andbF.
        rewrite andbT Hdl.
        have Hin: i \in det_idx P (n_x P) by rewrite det_ux mem_filter Hu mem_iota.
        have Hlt: (index i (det_idx P (n_x P)) < size (n_x (d_nlp d')))%N by rewrite Hszx index_mem.
        rewrite (addnC (size (n_g P))) (mem_act_x (d := d') (s_tol st) (q := q) Hsg Hsx) //.
        rewrite (act_x_R b x (s_tol st)) -?Hszx // nth_index // -/actx; case Ha: (actx i) => //.
        rewrite (index_active (d := d') (tol := s_tol st) (q := q) Hsg Hsx) ?[(index _ _ + _)%N]addnC ?ltn_add2l //; last first.
          rewrite /act_r /= ltnNge leq_addr /= addKn (act_x_R b x (s_tol st)) -?Hszx // nth_index //.
        rewrite (index_filter_iota Hj Huj).
        congr (table qs (_ + _)%N _).
          by rewrite size_map det_ux size_filter.
        rewrite iotaD count_cat; congr (_ + _)%N.
          apply: eq_in_count => r; rewrite mem_iota /= add0n => Hr; by rewrite /act_r /= Hr.
        rewrite add0n -{1}(addn0 (size (n_g P))) iotaDl count_map.
        rewrite det_ux index_filter_iota // /rank -(count_fidx_rank actx Hi Hu).
        apply: eq_in_count => i'; rewrite mem_iota /= add0n => Hi'.
        rewrite /act_r /= ltnNge leq_addr /= addKn (act_x_R b x (s_tol st)) //.
        apply: leq_trans Hi' _; rewrite -(index_filter_iota Hi Hu) -det_ux -Hszx; exact: ltnW.
      case: ifP => //= /eqP Hsp.
      rewrite /same_len; case: eqP => //= Hsg; case: eqP => //= Hsx [Eq Ep]; subst q p' => /=.
      move=> [_ ->]; set d' := mkDiff _ _ _; set q := mkPt _ _ _ _ => Hdl Hlg Hlx i j Hi Hj /=.
      move/negbT: Hred; rewrite -eqn0Ngt addn_eq0 => /andP[/eqP Ux /eqP Up].
      have Hux k': (k' < nx)%N -> ux P k' by exact: no_undet.
      have Hup k': (k' < np)%N -> up P k' by exact: no_undet.
      have R1: rank (ux P) nx = nx by apply: (rank_all Hux).
      have R2: rank (up P) j = j by apply: (rank_all Hup); exact: ltnW.
      rewrite R1 R2 Hup // andbT Hux //= Hdl (addnC ng) (mem_act_x (d := d') (s_tol st) (q := q) Hsg Hsx) // -/actx.
      case Ha: (actx i) => //.
      rewrite (index_active (d := d') (tol := s_tol st) (q := q) Hsg Hsx) ?[(i + _)%N]addnC ?ltn_add2l //; last first.
        by rewrite /act_r /= ltnNge leq_addr /= addKn.
      congr (table qs (_ + _)%N _).
      rewrite iotaD count_cat; congr (_ + _)%N.
        apply: eq_in_count => r; rewrite mem_iota /= add0n => Hr; by rewrite /act_r /= Hr.
      rewrite add0n -{1}(addn0 ng) iotaDl count_map; apply: eq_in_count => k; rewrite mem_iota /= add0n => Hk.
      by rewrite /act_r /= ltnNge leq_addr /= addKn Hux //; apply: ltn_trans Hk Hi.
  Qed.
End Pos.
