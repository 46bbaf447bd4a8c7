(** * The constraint qualification flag. *)
From Verif Require Import Base.
From mathcomp Require Import all_ssreflect all_algebra.
From Verif Require Import LinModel DiffModel DiffSpec DiffProofs DiffProofs2 DiffProofs3 DiffProofs4 DiffProofs5 DiffProofs6 DiffProofs7.
Set Implicit Arguments.
Unset Strict Implicit.
Unset Printing Implicit Defensive.
Import GRing.Theory Num.Theory.
Local Open Scope ring_scope.

Lemma row_free_ker (F : fieldType) m n (G : 'M[F]_(m,n)) :
  (\rank G == m) <-> forall v : 'rV_m, v *m G = 0 -> v = 0.
Proof.
  rewrite -[_ == _]/(row_free G) -kermx_eq0; split.
    by move/eqP=> H v Hv; apply/eqP; rewrite -submx0 -H; apply/sub_kermxP.
  move=> H; apply/eqP/row_matrixP => i; rewrite row0; apply: H.
  by rewrite -row_mul mulmx_ker row0.
Qed.

Section Grad.
  Variable F : realFieldType.
  Variable fn : nat -> F -> F.
  Variable dfn : nat -> nat.
  Variables (R : nlp F) (b : bnd F) (W : wf R b) (x p : seq F).
  Hypotheses (Sx : size x = size (n_x R)) (Sp : size p = size (n_p R)).

  Definition unitdir (j : nat) : nat -> F := fun i => if i == j then 1 else 0.

  Lemma moved_env (dx dp : nat -> F) s : (moved R x p dx dp s).1 = envof (n_x R ++ n_p R) (x ++ p) s.
  Proof.
    rewrite /moved /envof index_cat nth_cat Sx; case: ifP => Hx; first by rewrite index_mem Hx.
    rewrite -ltn_subRL subnn /= addKn; case: ifP => Hp //.
    by rewrite nth_default // Sp leqNgt index_mem Hp.
  Qed.

  Lemma evd_unit e j : (j < size (n_x R))%N ->
    (evd fn dfn (moved R x p (unitdir j) (fun=> 0)) e).2 =
    eval fn (envof (n_x R ++ n_p R) (x ++ p)) (D dfn (nth (usym 0) (n_x R) j) e).
  Proof.
    move=> Hj; rewrite (evd2 fn dfn (ss := n_x R ++ n_p R) _ (wf_uniq W)); last first.
      by move=> s; rewrite mem_cat negb_or /moved => /andP[/negbTE-> /negbTE->].
    have Hs: nth (usym 0) (n_x R) j \in n_x R ++ n_p R by rewrite mem_cat mem_nth.
    rewrite (bigD1_seq _ Hs (wf_uniq W)) /= [X in _ + X]big1_seq ?addr0.
      rewrite {2}/moved mem_nth // index_uniq ?(uniq_x W) //= /unitdir eqxx mulr1.
      rewrite -!(evd1 fn dfn (fun s => (_, 0))).
      by rewrite (@evd_ext F fn dfn _ (fun s => (envof (n_x R ++ n_p R) (x ++ p) s, 0))) // => s _; rewrite moved_env.
    move=> s /andP[Hn Hin]; rewrite /moved; case: ifP => Hx /=; last by case: ifP; rewrite mulr0.
    rewrite /unitdir; case: eqP => [E|_]; last by rewrite mulr0.
    by move: Hn; rewrite -E nth_index // eqxx.
  Qed.
End Grad.

Section Licq.
  Variable F : realFieldType.
  Variable fn : nat -> F -> F.
  Variable dfn : nat -> nat.
  Variables (d : differ F) (W : wf (d_nlp d) (d_bnd d)) (tol : F) (q : point F) (p : seq F).
  Let R := d_nlp d.
  Let ng := size (n_g R).
  Let nx := size (n_x R).
  Hypotheses (Hg : size (q_g q) = ng) (Hx : size (q_x q) = nx) (Hp : size p = size (n_p R)).
  Let act := active_cons d tol q.
  Let G := cons_grad fn dfn R (q_x q) p.
  Let dg k j := (evd fn dfn (moved R (q_x q) p (unitdir F j) (fun=> 0)) (nth (Cst 0) (n_g R) k)).2.

  Lemma ent_G_g k j : (k < ng)%N -> (j < nx)%N -> ent G k j = dg k j.
  Proof. by move=> Hk Hj; rewrite /dg (evd_unit fn dfn W Hx Hp) //= nth_cat -/ng Hk. Qed.
  Lemma ent_G_x i j : (i < nx)%N -> (j < nx)%N -> ent G (ng + i)%N j = if i == j then 1 else 0.
  Proof.
    move=> Hi Hj; rewrite /= nth_cat -/ng ltnNge leq_addr /= addKn (nth_map (usym 0)) //=.
    by rewrite nth_uniq // (uniq_x W).
  Qed.

  Lemma sum_G (c : nat -> F) j : (j < nx)%N ->
    \sum_(r < ng + nx) ent G r j * c r = (\sum_(k < ng) c k * dg k j) + c (ng + j)%N.
  Proof.
    move=> Hj; rewrite big_split_ord; congr (_ + _).
      by apply: eq_bigr => k _; rewrite -(ent_G_g (ltn_ord k) Hj) mulrC.
    rewrite (eq_bigr (fun i : 'I_nx => if i == Ordinal Hj then c (ng + j)%N else 0)).
      by rewrite -big_mkcond big_pred1_eq.
    move=> i _; have := ent_G_x (ltn_ord i) Hj; rewrite [X in ent G X]/= => ->.
    rewrite -(inj_eq val_inj) /=; case: eqP => [->|_]; by rewrite ?mul1r ?mul0r.
  Qed.

  Lemma check_licq_rank : check_licq fn dfn d (q_x q) p act <->
    forall v : 'rV[F]_(size act), v *m mx_of (size act) nx (sub_rows G act) = 0 -> v = 0.
  Proof.
    rewrite -row_free_ker /check_licq -/R -/G /=.
    have Hle := rank_leq_row (mx_of (size act) nx (sub_rows G act)).
    case: ifP => [/eqP E|_].
      by split=> // _; rewrite eqn_leq Hle /=; apply: leq_trans (leq0n _); rewrite leqn0; apply/eqP.
    by rewrite ltnNge eqn_leq Hle /=; case: (size act <= _)%N.
  Qed.

  Lemma check_licq_spec : check_licq fn dfn d (q_x q) p act <->
    licq fn dfn R (act_g tol (d_bnd d) (q_g q)) (act_x tol (d_bnd d) (q_x q)) (q_x q) p.
  Proof.
    rewrite check_licq_rank.
    have Hlt: all (fun r => r < ng + nx)%N act by apply/allP => r /(act_lt Hg Hx).
    have Hun: uniq act by exact: act_uniq.
    have Hmul (v : 'rV[F]_(size act)) (c : nat -> F) : (forall a, c a = if a \in act then (if insub (index a act) is Some a' then v 0 a' else 0) else 0) ->
        forall j (Hj : (j < nx)%N), (v *m mx_of (size act) nx (sub_rows G act)) 0 (Ordinal Hj) = (\sum_(k < ng) c k * dg k j) + c (ng + j)%N.
      move=> Hc j Hj; rewrite -sum_G // mxE.
      have := @sum_kept F act (ng + nx)%N (fun r => ent G r j) (fun a => if insub a is Some a' then v 0 a' else 0) Hun Hlt.
      set L := \sum_(k < size act) _ => HL.
      transitivity L; first by apply: eq_bigr => a _; rewrite valK mxE mulrC.
      by rewrite HL; apply: eq_bigr => r _; rewrite Hc.
    split.
    - move=> H cg cx Hcg Hcx Hsum.
      pose c r := if (r < ng)%N then cg r else cx (r - ng)%N.
      pose v : 'rV[F]_(size act) := \row_a c (nth 0%N act a).
      have Hoff r: (r < ng + nx)%N -> r \notin act -> c r = 0.
        move=> Hr Hn; rewrite /c; case: ifP => Hrg; first by apply: Hcg => //; rewrite -mem_act_g.
        have Hge: (ng <= r)%N by rewrite leqNgt Hrg.
        by apply: Hcx; rewrite ?ltn_subLR // -(mem_act_x _ Hg Hx) ?ltn_subLR // subnK.
      have Hon r: r \in act -> (if insub (index r act) is Some a' then v 0 a' else 0) = c r.
        move=> Hr; have Hi: (index r act < size act)%N by rewrite index_mem.
        by rewrite (insubT (fun i => i < size act)%N Hi) mxE /= nth_index.
      have Hv0: v = 0.
        apply: H; apply/rowP => -[j Hj].
        rewrite (Hmul v (fun a => if a \in act then (if insub (index a act) is Some a' then v 0 a' else 0) else 0)) // mxE.
        have Hcc r: (r < ng + nx)%N -> (if r \in act then (if insub (index r act) is Some a' then v 0 a' else 0) else 0) = c r.
          by move=> Hr; case: ifP => Hin; [rewrite Hon|rewrite Hoff ?Hin].
        rewrite Hcc ?ltn_add2l // -[RHS](Hsum j Hj); congr (_ + _).
          by apply: eq_bigr => k _; rewrite Hcc ?ltn_addr // /c ltn_ord.
        by rewrite /c ltnNge leq_addr /= addKn.
      have Hc0 r: (r < ng + nx)%N -> c r = 0.
        move=> Hr; case Hin: (r \in act); last by apply: Hoff; rewrite ?Hin.
        by rewrite -Hon // Hv0; case: insub => // a; rewrite mxE.
      split=> [k Hk|i Hi].
        by have := Hc0 k (ltn_addr _ Hk); rewrite /c Hk.
      have Hr: (ng + i < ng + nx)%N by rewrite ltn_add2l.
      by have := Hc0 _ Hr; rewrite /c ltnNge leq_addr /= addKn.
    - move=> H v Hv.
      pose c a := if a \in act then (if insub (index a act) is Some a' then v 0 a' else 0) else 0.
      have [] := H c (fun i => c (ng + i)%N).
      + by move=> k Hk; rewrite -(mem_act_g _ Hg) // /c => /negbTE->.
      + by move=> i Hi; rewrite -(mem_act_x _ Hg Hx) // /c addnC => /negbTE->.
      + by move=> j Hj; rewrite -/(unitdir F j) -(Hmul v c) // Hv mxE.
      move=> H1 H2; apply/rowP => a; rewrite mxE.
      have Hin: nth 0%N act a \in act by apply: mem_nth.
      have Hcv: c (nth 0%N act a) = v 0 a by rewrite /c Hin index_uniq // valK.
      rewrite -Hcv; have := act_lt Hg Hx Hin => Hr.
      case: (ltnP (nth 0%N act a) ng) => Hrg; first exact: H1.
      by rewrite -(subnKC Hrg); apply: H2; rewrite ltn_subLR.
  Qed.
End Licq.

Section LicqLift.
  Variable F : realFieldType.
  Variable fn : nat -> F -> F.
  Variable dfn : nat -> nat.
  Variables (P : nlp F) (b : bnd F) (W : wf P b).
  Variables (x p : seq F) (actg actx : nat -> bool).
  Let detx := det_idx P (n_x P).
  Let detp := det_idx P (n_p P).
  Let R : nlp F := mkNlp (gather (usym 0) (n_x P) detx) (gather (usym 0) (n_p P) detp) (n_f P) (n_g P).

  Lemma dg_R k i' : (k < size (n_g P))%N -> (i' < size detx)%N ->
    (evd fn dfn (moved P x p (unitdir F (nth 0%N detx i')) (fun=> 0)) (nth (Cst 0) (n_g P) k)).2 =
    (evd fn dfn (moved R (gather 0 x detx) (gather 0 p detp) (unitdir F i') (fun=> 0)) (nth (Cst 0) (n_g P) k)).2.
  Proof.
    move=> Hk Hi; rewrite (evd_R fn dfn W); last by move=> s; exact: used_g.
    congr (_).2; apply: evd_ext => s _; apply: moved_ext => a; rewrite size_map => Ha.
    by rewrite /unitdir nth_uniq // fidx_uniq.
  Qed.

  Lemma dg_unused k i : (k < size (n_g P))%N -> (i < size (n_x P))%N -> i \notin detx ->
    (evd fn dfn (moved P x p (unitdir F i) (fun=> 0)) (nth (Cst 0) (n_g P) k)).2 = 0.
  Proof.
    move=> Hk Hi Hn.
    have H0: evd fn dfn (moved P x p (unitdir F i) (fun=> 0)) (nth (Cst 0) (n_g P) k)
           = evd fn dfn (moved P x p (fun=> 0) (fun=> 0)) (nth (Cst 0) (n_g P) k).
      apply: evd_ext => s Ho; rewrite /moved; case: ifP => // Hs; congr (_, _).
      rewrite /unitdir; case: eqP => // E.
      by move: Hn; rewrite mem_fidx Hi /= -E nth_index // (used_g Hk Ho).
    rewrite H0 (evd2 fn dfn (ss := [::])) ?big_nil // => s _.
    by rewrite /moved; case: ifP => //; case: ifP.
  Qed.

  Lemma licq_R : licq fn dfn P actg actx x p <->
    licq fn dfn R actg (fun i' => actx (nth 0%N detx i')) (gather 0 x detx) (gather 0 p detp).
  Proof.
    have Hsz: size (n_x R) = size detx by rewrite size_map.
    have Hlt i': (i' < size detx)%N -> (nth 0%N detx i' < size (n_x P))%N by exact: nth_fidx_lt.
    split=> H cg cx Hcg Hcx Hsum.
    - pose cx' i := if i \in detx then cx (index i detx) else 0.
      have Hidx i': (i' < size detx)%N -> cx' (nth 0%N detx i') = cx i'.
        by move=> Hi; rewrite /cx' mem_nth // index_uniq // fidx_uniq.
      have [|||H1 H2] := H cg cx'; first exact: Hcg.
      + move=> i Hi Ha; rewrite /cx'; case: ifP => // Hin; apply: Hcx; first by rewrite Hsz index_mem.
        by rewrite nth_index.
      + move=> i Hi; case Hin: (i \in detx).
          have Hi': (index i detx < size (n_x R))%N by rewrite Hsz index_mem.
          have Hi2: (index i detx < size detx)%N by rewrite index_mem.
          rewrite -[RHS](Hsum _ Hi') /cx' Hin; congr (_ + _); apply: eq_bigr => k _.
          by rewrite -/(unitdir F i) -/(unitdir F (index i detx)) -[in LHS](nth_index 0%N Hin) dg_R.
        rewrite /cx' Hin addr0 big1 // => k _.
        by rewrite -/(unitdir F i) dg_unused ?Hin ?mulr0.
      split; first exact: H1.
      by move=> i'; rewrite Hsz => Hi; rewrite -Hidx // H2 // Hlt.
    - have [|||H1 H2] := H cg (fun i' => cx (nth 0%N detx i')); first exact: Hcg.
      + by move=> i'; rewrite Hsz => Hi Ha; apply: Hcx => //; apply: Hlt.
      + move=> i'; rewrite Hsz => Hi; rewrite -[RHS](Hsum _ (Hlt _ Hi)); congr (_ + _); apply: eq_bigr => k _.
        by rewrite -/(unitdir F i') -/(unitdir F (nth 0%N detx i')) dg_R.
      split; first exact: H1.
      move=> i Hi; case Hin: (i \in detx).
        have Hi': (index i detx < size (n_x R))%N by rewrite Hsz index_mem.
        by have := H2 _ Hi'; rewrite nth_index.
      have := Hsum i Hi; rewrite big1 ?add0r // => k _.
      by rewrite -/(unitdir F i) dg_unused ?Hin ?mulr0.
  Qed.
End LicqLift.
