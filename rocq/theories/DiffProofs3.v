(** * From the solved linear system to tracked optimality conditions, and back to the full problem. *)
From Verif Require Import Base.
From mathcomp Require Import all_ssreflect all_algebra.
From Verif Require Import LinModel DiffModel DiffSpec DiffProofs DiffProofs2.
Set Implicit Arguments.
Unset Strict Implicit.
Unset Printing Implicit Defensive.
Import GRing.Theory Num.Theory.
Local Open Scope ring_scope.

Lemma addn_inj n : injective (fun i => (i + n)%N).
Proof. by move=> a c /eqP; rewrite eqn_add2r => /eqP. Qed.
Lemma mem_map_addn n i l : ((i + n)%N \in [seq (j + n)%N | j <- l]) = (i \in l).
Proof. exact: (mem_map (@addn_inj n)). Qed.
Lemma index_map_addn n i l : index (i + n)%N [seq (j + n)%N | j <- l] = index i l.
Proof. exact: (index_map (@addn_inj n)). Qed.

Section Act.
  Variable F : realFieldType.

  Lemma near_at_bound tol (v : F) lb ub : near tol v lb || near tol v ub = at_bound tol v lb ub.
  Proof. by []. Qed.

  Lemma mem_where_active tol (v : seq F) lb ub i :
    (i \in where_active tol v lb ub) = (i < size v)%N && at_bound tol (nth 0 v i) (nth None lb i) (nth None ub i).
  Proof. by rewrite mem_filter mem_iota /= add0n andbC near_at_bound. Qed.

  Lemma mem_where_inactive tol (v : seq F) lb ub i :
    (i \in where_inactive tol v lb ub) = (i < size v)%N && ~~ at_bound tol (nth 0 v i) (nth None lb i) (nth None ub i).
  Proof. by rewrite mem_filter mem_iota /= add0n andbC -negb_or near_at_bound. Qed.

  Variables (d : differ F) (tol : F) (q : point F).
  Let ng := size (n_g (d_nlp d)).
  Let nx := size (n_x (d_nlp d)).
  Hypotheses (Hg : size (q_g q) = ng) (Hx : size (q_x q) = nx).
  Let act := active_cons d tol q.

  Lemma mem_act_g k : (k < ng)%N -> (k \in act) = act_g tol (d_bnd d) (q_g q) k.
  Proof.
    move=> Hk; rewrite mem_cat mem_where_active Hg Hk /= orb_idr // => /mapP[i _ E].
    by rewrite E -/ng ltnNge leq_addl in Hk.
  Qed.

  Lemma mem_act_x i : (i < nx)%N -> ((i + ng)%N \in act) = act_x tol (d_bnd d) (q_x q) i.
  Proof.
    move=> Hi; rewrite mem_cat mem_where_active Hg -/ng ltnNge leq_addl /=.
    by rewrite mem_map_addn mem_where_active Hx Hi.
  Qed.

  Lemma act_uniq : uniq act.
  Proof.
    rewrite cat_uniq filter_uniq ?iota_uniq //= map_inj_uniq ?filter_uniq ?iota_uniq ?andbT //; last first.
      exact: addn_inj.
    apply/hasPn => r /mapP[i _ ->]; rewrite /= mem_where_active Hg -/ng ltnNge leq_addl //.
  Qed.

  Lemma act_lt r : r \in act -> (r < ng + nx)%N.
  Proof.
    rewrite mem_cat => /orP[|/mapP[i]]; rewrite mem_where_active ?Hg ?Hx => /andP[Hr _].
      exact: ltn_addr.
    by move=> ->; rewrite -/ng addnC ltn_add2l.
  Qed.

  Let keep := keep_idx d act.
  Let nz := (nx + ng + nx)%N.

  Lemma size_keep : size keep = (nx + size act)%N.
  Proof. by rewrite size_cat size_iota size_map. Qed.
  Lemma keep_uniq : uniq keep.
  Proof.
    rewrite cat_uniq iota_uniq /= map_inj_uniq ?act_uniq ?andbT; last first.
      exact: addn_inj.
    by apply/hasPn => r /mapP[i _ ->]; rewrite /= mem_iota /= add0n -/nx ltnNge leq_addl.
  Qed.
  Lemma keep_lt : all (fun m => m < nz)%N keep.
  Proof.
    apply/allP => m; rewrite mem_cat mem_iota /= => /orP[Hm|/mapP[r /act_lt Hr ->]].
      by rewrite /nz -addnA; apply: ltn_addr.
    by rewrite /nz -addnA addnC ltn_add2l.
  Qed.
  Lemma mem_keep_x i : (i < nx)%N -> i \in keep.
  Proof. by move=> H; rewrite mem_cat mem_iota /= add0n -/nx H. Qed.
  Lemma index_keep_x i : (i < nx)%N -> index i keep = i.
  Proof.
    move=> H; rewrite index_cat mem_iota /= add0n -/nx H.
    by rewrite -[X in index X _](nth_iota 0%N 0 H) index_uniq ?size_iota ?iota_uniq.
  Qed.
  Lemma mem_keep_r r : ((nx + r)%N \in keep) = (r \in act).
  Proof.
    by rewrite mem_cat mem_iota /= add0n -/nx ltnNge leq_addr /= (addnC nx) mem_map_addn.
  Qed.
  Lemma index_keep_r r : index (nx + r)%N keep = (nx + index r act)%N.
  Proof.
    rewrite index_cat mem_iota /= add0n -/nx ltnNge leq_addr /= size_iota; congr (_ + _)%N.
    by rewrite (addnC nx) index_map_addn.
  Qed.
  Lemma keep_case m : m \in keep ->
    [\/ (m < nx)%N, exists k, [/\ (k < ng)%N, act_g tol (d_bnd d) (q_g q) k & m = (nx + k)%N]
      | exists i, [/\ (i < nx)%N, act_x tol (d_bnd d) (q_x q) i & m = (nx + ng + i)%N]].
  Proof.
    rewrite mem_cat mem_iota /= => /orP[Hm|/mapP[r Hr ->]]; first by constructor 1.
    case: (ltnP r ng) => Hrg.
      by constructor 2; exists r; rewrite -mem_act_g // addnC.
    have Hlt := act_lt Hr; constructor 3; exists (r - ng)%N.
    have Hi: (r - ng < nx)%N by rewrite ltn_subLR.
    by split=> //; [rewrite -mem_act_x // subnK|rewrite -addnA subnKC // addnC].
  Qed.
End Act.

Section Ext.
  Variable F : realFieldType.
  Variable fn : nat -> F -> F.
  Variable dfn : nat -> nat.

  Lemma moved_ext (P : nlp F) x p (dx dx' dp : nat -> F) :
    (forall i, (i < size (n_x P))%N -> dx i = dx' i) -> forall s, moved P x p dx dp s = moved P x p dx' dp s.
  Proof. by move=> H s; rewrite /moved; case: ifP => // Hs; rewrite H // index_mem. Qed.

  Lemma tracks_ext (P : nlp F) actg actx x lg lx p dx dlg dlx dx' dlg' dlx' dp :
    (forall i, (i < size (n_x P))%N -> dx i = dx' i) ->
    (forall k, (k < size (n_g P))%N -> dlg k = dlg' k) ->
    (forall i, (i < size (n_x P))%N -> dlx i = dlx' i) ->
    tracks fn dfn P actg actx x lg lx p dx dlg dlx dp -> tracks fn dfn P actg actx x lg lx p dx' dlg' dlx' dp.
  Proof.
    move=> H1 H2 H3 [T1 T2 T3 T4 T5].
    have He: forall e, evd fn dfn (moved P x p dx dp) e = evd fn dfn (moved P x p dx' dp) e.
      by move=> e; apply: evd_ext => s _; apply: moved_ext.
    split.
    - move=> i Hi; rewrite -(T1 i Hi) /stationarity He H3 //; congr (dadd _ (dadd _ _)).2.
      apply: eq_foldr_dadd => k; rewrite mem_iota /= add0n => Hk; by rewrite He H2.
    - by move=> k Hk Ha; rewrite -He T2.
    - by move=> i Hi Ha; rewrite -H1 // T3.
    - by move=> k Hk Ha; rewrite -H2 // T4.
    - by move=> i Hi Ha; rewrite -H3 // T5.
  Qed.
End Ext.

Lemma lin_comb (F : realFieldType) n np (a c : nat -> F) (S : nat -> nat -> F) (dp : nat -> F) :
  (forall j, (j < np)%N -> (\sum_(k < n) a k * S k j) + c j = 0) ->
  (\sum_(k < n) a k * along np S dp k) + \sum_(j < np) c j * dp j = 0.
Proof.
  move=> H; rewrite /along.
  under eq_bigr do rewrite mulr_sumr.
  rewrite exchange_big -big_split big1 // => j _.
  transitivity (((\sum_(k < n) a k * S k j) + c j) * dp j); last by rewrite H // mul0r.
  rewrite mulrDl mulr_suml; congr (_ + _).
  by apply: eq_bigr => k _; rewrite mulrA.
Qed.

Section Solve.
  Variable F : realFieldType.
  Variable fn : nat -> F -> F.
  Variable dfn : nat -> nat.
  Variables (d : differ F) (tol : F) (q : point F) (p : seq F).
  Hypothesis W : wf (d_nlp d) (d_bnd d).
  Let R := d_nlp d.
  Let ng := size (n_g R).
  Let nx := size (n_x R).
  Let np := size (n_p R).
  Hypotheses (Hg : size (q_g q) = ng) (Hx : size (q_x q) = nx) (Hlg : size (q_lg q) = ng)
             (Hlx : size (q_lx q) = nx) (Hp : size p = np).
  Let act := active_cons d tol q.
  Let keep := keep_idx d act.
  Let z := q_x q ++ q_lg q ++ q_lx q.
  Let A := sub_both (A_of fn dfn R z p) keep.
  Let B := sub_rows (B_of fn dfn R z p) keep.
  Let actg := act_g tol (d_bnd d) (q_g q).
  Let actx := act_x tol (d_bnd d) (q_x q).
  Let nz := (nx + ng + nx)%N.

  Variable M : arr F.
  Hypothesis Hres : resid2 A B (ent M) = 0.

  Definition dzM (dp : nat -> F) (m : nat) : F :=
    if m \in keep then along np (ent M) dp (index m keep) else 0.

  Lemma szz : size (zsyms R) = nz.
  Proof. exact: (size_zsyms R). Qed.

  (** Row sums of the reduced system. *)
  Lemma rowv_kept (T : nat -> F) (dz dp : nat -> F) i :
    (forall m, (m < nz)%N -> dz m = if m \in keep then T (index m keep) else 0) ->
    rowv fn dfn R (q_x q) (q_lg q) (q_lx q) p dz dp (nth 0%N keep i) =
    \sum_(k < size keep) ent A i k * T k + \sum_(j < np) ent B i j * dp j.
  Proof.
    move=> Hdz; rewrite /rowv szz; congr (_ + _).
    have Hs := @sum_kept _ keep nz (ent (A_of fn dfn R z p) (nth 0%N keep i)) T (keep_uniq _ Hg) (keep_lt _ Hg Hx).
    rewrite [RHS]Hs; apply: eq_bigr => m _; by rewrite Hdz.
  Qed.

  Lemma rowv_zero dp i : (i < size keep)%N ->
    rowv fn dfn R (q_x q) (q_lg q) (q_lx q) p (dzM dp) dp (nth 0%N keep i) = 0.
  Proof.
    move=> Hi; rewrite (rowv_kept (T := along np (ent M) dp)) //.
    by apply: lin_comb => j Hj; apply: (resid2_0 Hres).
  Qed.

  Lemma solve_tracks dp :
    tracks fn dfn R actg actx (q_x q) (q_lg q) (q_lx q) p
      (along np (ent M) dp)
      (fun k => if k \in act then along np (ent M) dp (nx + index k act) else 0)
      (fun i => if (i + ng)%N \in act then along np (ent M) dp (nx + index (i + ng)%N act) else 0) dp.
  Proof.
    have Hrow: forall m, m \in keep -> rowv fn dfn R (q_x q) (q_lg q) (q_lx q) p (dzM dp) dp m = 0.
      by move=> m Hm; rewrite -(nth_index 0%N Hm) rowv_zero // index_mem.
    apply: (@tracks_ext _ _ _ _ _ _ _ _ _ _ (dx_ (dzM dp)) (dlg_ R (dzM dp)) (dlx_ R (dzM dp))).
    - by move=> i Hi; rewrite /dx_ /dzM mem_keep_x // index_keep_x.
    - move=> k Hk; rewrite /dlg_ /dzM -/nx /keep mem_keep_r index_keep_r //.
    - move=> i Hi; rewrite /dlx_ /dzM -/nx -/ng -addnA /keep mem_keep_r index_keep_r (addnC ng) //.
    apply/(tracks_rows fn dfn W Hx Hlg Hlx Hp); split.
    - by move=> i Hi; apply: Hrow; apply: mem_keep_x.
    - by move=> k Hk Ha; apply: Hrow; rewrite mem_keep_r mem_act_g.
    - by move=> i Hi Ha; apply: Hrow; rewrite -addnA mem_keep_r addnC mem_act_x.
    - by move=> k Hk /negbTE Ha; rewrite /dzM mem_keep_r mem_act_g // -/actg Ha.
    - by move=> i Hi /negbTE Ha; rewrite /dzM -addnA mem_keep_r addnC mem_act_x // -/actx Ha.
  Qed.

  (** Uniqueness when the reduced matrix is invertible. *)
  Lemma solve_unique dp dx dlg dlx : check_rank A ->
    tracks fn dfn R actg actx (q_x q) (q_lg q) (q_lx q) p dx dlg dlx dp ->
    [/\ forall i, (i < nx)%N -> dx i = along np (ent M) dp i,
        forall k, (k < ng)%N -> dlg k = if k \in act then along np (ent M) dp (nx + index k act) else 0
      & forall i, (i < nx)%N -> dlx i = if (i + ng)%N \in act then along np (ent M) dp (nx + index (i + ng)%N act) else 0].
  Proof.
    move=> Hrk Ht.
    pose dz m := if (m < nx)%N then dx m else if (m < nx + ng)%N then dlg (m - nx)%N else dlx (m - (nx + ng))%N.
    have Ez1 i: (i < nx)%N -> dz i = dx i by rewrite /dz => ->.
    have Ez2 k: (k < ng)%N -> dz (nx + k)%N = dlg k.
      by move=> Hk; rewrite /dz ltnNge leq_addr /= ltn_add2l Hk addKn.
    have Ez3 i: (i < nx)%N -> dz (nx + ng + i)%N = dlx i.
      by move=> Hi; rewrite /dz -addnA ltnNge leq_addr /= addnA ltnNge leq_addr /= addKn.
    have: tracks fn dfn R actg actx (q_x q) (q_lg q) (q_lx q) p (dx_ dz) (dlg_ R dz) (dlx_ R dz) dp.
      apply: (tracks_ext _ _ _ Ht) => [i Hi|k Hk|i Hi]; rewrite /dx_ /dlg_ /dlx_.
      - by rewrite Ez1.
      - by rewrite Ez2.
      - by rewrite Ez3.
    move/(tracks_rows fn dfn W Hx Hlg Hlx Hp) => [R1 R2 R3 R4 R5].
    have Hout m: (m < nz)%N -> m \notin keep -> dz m = 0.
      move=> Hm Hn; case: (ltnP m nx) => H1; first by rewrite mem_keep_x in Hn.
      case: (ltnP m (nx + ng)) => H2.
        have Hk: (m - nx < ng)%N by rewrite ltn_subLR.
        rewrite -(subnKC H1); apply: R4 => //.
        by rewrite /actg -mem_act_g // -mem_keep_r subnKC.
      have Hi: (m - (nx + ng) < nx)%N by rewrite ltn_subLR.
      rewrite -(subnKC H2); apply: R5 => //.
      by rewrite /actx -mem_act_x // -mem_keep_r [(_ + size _)%N]addnC addnA subnKC.
    have Hrow m: m \in keep -> rowv fn dfn R (q_x q) (q_lg q) (q_lx q) p dz dp m = 0.
      case/(keep_case Hg Hx) => [Hm|[k [Hk Ha ->]]|[i [Hi Ha ->]]]; [exact: R1|exact: R2|exact: R3].
    (* difference in the kernel *)
    pose T k := dz (nth 0%N keep k).
    have Hdz m: (m < nz)%N -> dz m = if m \in keep then T (index m keep) else 0.
      by move=> Hm; case: ifP => Hk; [rewrite /T nth_index|apply: Hout; rewrite ?Hk].
    pose v : 'cV[F]_(size keep) := \col_k (T k - along np (ent M) dp k).
    have HA: mx_of (size keep) (size keep) A *m v = 0.
      apply/matrixP => i j; rewrite !mxE.
      have := rowv_kept dp i Hdz; rewrite Hrow ?mem_nth // => E1.
      have := @rowv_kept (along np (ent M) dp) (dzM dp) dp i (fun m _ => erefl).
      rewrite rowv_zero // => E2.
      under eq_bigr do rewrite !mxE mulrBr.
      by rewrite sumrB -[X in X - _](addrK (\sum_(j < np) ent B i j * dp j)) -E1 -[X in _ - X](addrK (\sum_(j < np) ent B i j * dp j)) -E2 subrr.
    have Hv: v = 0.
      have Hun: mx_of (size keep) (size keep) A \in unitmx.
        by rewrite -row_free_unit -row_leq_rank; move: Hrk; rewrite /check_rank /= => /eqP ->.
      by rewrite -[v](mulKmx Hun) HA mulmx0.
    have HT k: (k < size keep)%N -> T k = along np (ent M) dp k.
      by move=> Hk; apply/eqP; rewrite -subr_eq0; apply/eqP; have := congr1 (fun u : 'cV_(size keep) => u (Ordinal Hk) 0) Hv; rewrite !mxE.
    have Hall m: (m < nz)%N -> dz m = if m \in keep then along np (ent M) dp (index m keep) else 0.
      by move=> Hm; rewrite Hdz //; case: ifP => // Hk; rewrite HT // index_mem.
    split.
    - move=> i Hi; rewrite -Ez1 // Hall ?mem_keep_x ?index_keep_x // /nz -addnA; exact: ltn_addr.
    - move=> k Hk; rewrite -Ez2 // Hall ?mem_keep_r ?index_keep_r // /nz -addnA ltn_add2l; exact: ltn_addr.
    - by move=> i Hi; rewrite -Ez3 // Hall ?/nz ?ltn_add2l // -addnA mem_keep_r index_keep_r (addnC ng).
  Qed.
End Solve.
