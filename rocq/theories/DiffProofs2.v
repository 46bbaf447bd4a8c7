(** * The reduced sensitivity system is the linearisation of the optimality conditions. *)
From Verif Require Import Base.
From mathcomp Require Import all_ssreflect all_algebra.
From Verif Require Import LinModel DiffModel DiffSpec DiffProofs.
Set Implicit Arguments.
Unset Strict Implicit.
Unset Printing Implicit Defensive.
Import GRing.Theory Num.Theory.
Local Open Scope ring_scope.

Lemma index_map_gsym k n : (k < n)%N -> index (gsym k) [seq gsym i | i <- iota 0 n] = k.
Proof.
  move=> H; have Hi: injective gsym by move=> a b [].
  by rewrite (index_map Hi) -[X in index X _](nth_iota 0%N 0 H) index_uniq ?size_iota ?iota_uniq.
Qed.
Lemma index_map_xsym k n : (k < n)%N -> index (xsym k) [seq xsym i | i <- iota 0 n] = k.
Proof.
  move=> H; have Hi: injective xsym by move=> a b [].
  by rewrite (index_map Hi) -[X in index X _](nth_iota 0%N 0 H) index_uniq ?size_iota ?iota_uniq.
Qed.

Section Core.
  Variable F : realFieldType.
  Variable fn : nat -> F -> F.
  Variable dfn : nat -> nat.
  Local Notation evd := (evd fn dfn).
  Local Notation eval := (eval fn).
  Local Notation D := (D dfn).

  Variables (R : nlp F) (b : bnd F) (W : wf R b).
  Variables (x lg lx p : seq F).
  Hypotheses (Sx : size x = size (n_x R)) (Sg : size lg = size (n_g R)) (Sl : size lx = size (n_x R))
             (Sp : size p = size (n_p R)).
  Let z := x ++ lg ++ lx.
  Let nx := size (n_x R).
  Let ng := size (n_g R).
  Let np := size (n_p R).
  Let nz := size (zsyms R).

  Lemma size_lam_g : size (lam_g R) = ng. Proof. by rewrite size_map size_iota. Qed.
  Lemma size_lam_x : size (lam_x R) = nx. Proof. by rewrite size_map size_iota. Qed.
  Lemma size_zsyms : nz = (nx + ng + nx)%N.
  Proof. by rewrite /nz /zsyms !size_cat size_lam_g size_lam_x addnA. Qed.
  Lemma size_z : size z = nz.
  Proof. by rewrite size_zsyms /z !size_cat Sx Sg Sl addnA. Qed.

  Lemma user_x s : s \in n_x R -> is_user s.
  Proof. by move=> H; apply: (allP (wf_user W)); rewrite mem_cat H. Qed.
  Lemma user_p s : s \in n_p R -> is_user s.
  Proof. by move=> H; apply: (allP (wf_user W)); rewrite mem_cat H orbT. Qed.
  Lemma notuser_lam s : s \in lam_g R ++ lam_x R -> ~~ is_user s.
  Proof. by rewrite mem_cat => /orP[] /mapP[k _ ->]. Qed.

  Lemma uniq_x : uniq (n_x R). Proof. by move: (wf_uniq W); rewrite cat_uniq => /andP[]. Qed.
  Lemma uniq_p : uniq (n_p R). Proof. by move: (wf_uniq W); rewrite cat_uniq => /and3P[]. Qed.
  Lemma disj_xp s : s \in n_x R -> s \notin n_p R.
  Proof.
    move: (wf_uniq W); rewrite cat_uniq => /and3P[_ /hasPn H _] Hx.
    by apply/negP => /H /negP; apply.
  Qed.

  Lemma uniq_all : uniq (zsyms R ++ n_p R).
  Proof.
    have Hg: uniq (lam_g R) by rewrite map_inj_uniq ?iota_uniq // => a c [].
    have Hx: uniq (lam_x R) by rewrite map_inj_uniq ?iota_uniq // => a c [].
    have H1: ~~ has (mem (n_x R)) (lam_g R ++ lam_x R).
      by apply/hasPn => s /notuser_lam H; apply: contraNN H; exact: user_x.
    have H2: ~~ has (mem (lam_g R)) (lam_x R).
      by apply/hasPn => s /mapP[k _ ->]; apply/negP => /mapP[k' _].
    have H3: ~~ has (mem (zsyms R)) (n_p R).
      apply/hasPn => s Hp; rewrite /= mem_cat negb_or; apply/andP; split.
        by apply: contraTN Hp; exact: disj_xp.
      by apply: contraTN Hp => /notuser_lam H; apply: contraNN H; exact: user_p.
    by rewrite cat_uniq H3 uniq_p andbT /zsyms cat_uniq uniq_x H1 /= cat_uniq Hg H2 Hx.
  Qed.

  Variables (dz dp : nat -> F).
  Definition tang (s : sym) : F :=
    if s \in zsyms R then dz (index s (zsyms R)) else if s \in n_p R then dp (index s (n_p R)) else 0.
  Definition rz : sym -> F * F := fun s => (envof (zsyms R ++ n_p R) (z ++ p) s, tang s).
  Definition dx_ (i : nat) := dz i.
  Definition dlg_ (k : nat) := dz (nx + k)%N.
  Definition dlx_ (i : nat) := dz (nx + ng + i)%N.
  Definition rho := moved R x p dx_ dp.

  Lemma rz_user s : is_user s -> rz s = rho s.
  Proof.
    move=> Hs; rewrite /rz /rho /moved /envof /tang.
    have Hlam: s \in lam_g R ++ lam_x R = false.
      by apply/negP => /notuser_lam; rewrite Hs.
    case Hx: (s \in n_x R).
    - have -> : s \in zsyms R by rewrite mem_cat Hx.
      rewrite !index_cat mem_cat Hx /=; congr (_, _).
      by rewrite /z -catA nth_cat Sx index_mem Hx.
    - have -> : s \in zsyms R = false by rewrite mem_cat Hx Hlam.
      rewrite index_cat mem_cat Hx Hlam /=.
      have -> : nth 0 (z ++ p) (size (zsyms R) + index s (n_p R)) = nth 0 p (index s (n_p R)).
        by rewrite nth_cat size_z /nz -ltn_subRL subnn /= addKn.
      case Hp: (s \in n_p R) => //; congr (_, _).
      by rewrite nth_default // Sp leqNgt index_mem Hp.
  Qed.

  Lemma rz_g k : (k < ng)%N -> rz (gsym k) = (nth 0 lg k, dlg_ k).
  Proof.
    move=> Hk.
    have Hx: gsym k \in n_x R = false by apply/negP => /user_x.
    have Hg: gsym k \in lam_g R by rewrite map_f // mem_iota.
    have Hi: index (gsym k) (zsyms R) = (nx + k)%N by rewrite /zsyms !index_cat Hx Hg index_map_gsym.
    rewrite /rz /envof /tang mem_cat Hx mem_cat Hg /= Hi index_cat mem_cat Hx mem_cat Hg /= Hi.
    congr (_, _).
    rewrite nth_cat size_z size_zsyms -addnA ltn_add2l (ltn_addr _ Hk) /z nth_cat Sx -/nx.
    by rewrite ltnNge leq_addr /= addKn nth_cat Sg -/ng Hk.
  Qed.

  Lemma rz_x i : (i < nx)%N -> rz (xsym i) = (nth 0 lx i, dlx_ i).
  Proof.
    move=> Hk.
    have Hx: xsym i \in n_x R = false by apply/negP => /user_x.
    have Hg: xsym i \in lam_g R = false by apply/negP => /mapP[].
    have Hl: xsym i \in lam_x R by rewrite map_f // mem_iota.
    have Hi: index (xsym i) (zsyms R) = (nx + ng + i)%N.
      by rewrite /zsyms !index_cat Hx Hg index_map_xsym // size_lam_g addnA.
    rewrite /rz /envof /tang mem_cat Hx mem_cat Hg Hl /= Hi index_cat mem_cat Hx mem_cat Hg Hl /= Hi.
    congr (_, _).
    rewrite nth_cat size_z size_zsyms ltn_add2l Hk /z nth_cat Sx -/nx -addnA ltnNge leq_addr /= addKn.
    by rewrite nth_cat Sg -/ng ltnNge leq_addr /= addKn.
  Qed.

  Lemma evd_f s : evd rz (D s (n_f R)) = evd rho (D s (n_f R)).
  Proof. by apply: evd_ext => t /occ_D /(wf_f W); exact: rz_user. Qed.
  Lemma evd_gD s k : (k < ng)%N -> evd rz (D s (nth (Cst 0) (n_g R) k)) = evd rho (D s (nth (Cst 0) (n_g R) k)).
  Proof. by move=> Hk; apply: evd_ext => t /occ_D /(wf_g W Hk); exact: rz_user. Qed.
  Lemma evd_g k : (k < ng)%N -> evd rz (nth (Cst 0) (n_g R) k) = evd rho (nth (Cst 0) (n_g R) k).
  Proof. by move=> Hk; apply: evd_ext => t /(wf_g W Hk); exact: rz_user. Qed.

  Lemma szx : size (lam_x R) = size [seq Sym F s | s <- n_x R].
  Proof. by rewrite size_lam_x size_map. Qed.

  Lemma dmul0l (c : F * F) : dmul (0,0) c = (0,0).
  Proof. by rewrite /dmul /= !mul0r addr0. Qed.
  Lemma dmul0r (c : F * F) : dmul c (0,0) = (0,0).
  Proof. by rewrite /dmul /= !mulr0 addr0. Qed.
  Lemma dmul1l (c : F * F) : dmul (1,0) c = c.
  Proof. by case: c => c1 c2; rewrite /dmul /= !mul1r mul0r addr0. Qed.
  Lemma dmul1r (c : F * F) : dmul c (1,0) = c.
  Proof. by case: c => c1 c2; rewrite /dmul /= !mulr1 mulr0 add0r. Qed.
  Lemma dadd0l (c : F * F) : dadd (0,0) c = c.
  Proof. by case: c => c1 c2; rewrite /dadd /= !add0r. Qed.

  Lemma nth_lamg k : (k < ng)%N -> nth (usym 0) (lam_g R) k = gsym k.
  Proof. by move=> Hk; rewrite (nth_map 0%N) ?size_iota // nth_iota. Qed.
  Lemma nth_lamx k : (k < nx)%N -> nth (usym 0) (lam_x R) k = xsym k.
  Proof. by move=> Hk; rewrite (nth_map 0%N) ?size_iota // nth_iota. Qed.

  Lemma lagr_x i : (i < nx)%N ->
    evd rz (D (nth (usym 0) (n_x R) i) (lagr R)) = stationarity fn dfn R x lg lx p dx_ dlg_ dlx_ dp i.
  Proof.
    move=> Hi; set s := nth _ _ i.
    have Hs: s \in n_x R by apply: mem_nth.
    have Hsu := user_x Hs.
    rewrite /stationarity -/rho -/s /lagr /=.
    rewrite evd_f (evd_D_dotex _ _ _ _ size_lam_g) (evd_D_dotex _ _ _ _ szx).
    rewrite [foldr _ _ (iota 0 (size [seq Sym F s | s <- n_x R]))](foldr_dadd1 (k0 := i)) ?iota_uniq //; first last.
    - move=> k; rewrite mem_iota /= add0n size_map => Hk Hki.
      rewrite nth_lamx // (nth_map (usym 0)) //=.
      rewrite (_ : (xsym k == s) = false); last by case: (s) Hsu.
      rewrite dmul0l dadd0l (_ : (_ == s) = false) ?dmul0r //.
      by rewrite /s nth_uniq ?uniq_x // (negbTE Hki).
    - by rewrite mem_iota size_map.
    rewrite nth_lamx // (nth_map (usym 0)) //= -/s eqxx.
    rewrite (_ : (xsym i == s) = false); last by case: (s) Hsu.
    rewrite dmul0l dadd0l dmul1r rz_x //.
    set S1 := foldr _ _ _; set S2 := foldr _ _ _.
    have -> : S1 = S2.
      apply: eq_foldr_dadd => k; rewrite mem_iota /= add0n => Hk.
      rewrite nth_lamg // (_ : (gsym k == s) = false); last by case: (s) Hsu.
      by rewrite dmul0l dadd0l rz_g // evd_gD.
    by rewrite /dadd /= !addrA.
  Qed.

  Lemma lagr_g k : (k < ng)%N -> evd rz (D (gsym k) (lagr R)) = evd rho (nth (Cst 0) (n_g R) k).
  Proof.
    move=> Hk; rewrite /lagr /=.
    rewrite (evd_D0 fn) ?dadd0l; last by apply/negP => /(wf_f W).
    rewrite (evd_D_dotex _ _ _ _ size_lam_g) (evd_D_dotex _ _ _ _ szx).
    rewrite [foldr _ _ (iota 0 (size [seq Sym F s | s <- n_x R]))]foldr_dadd0 ?dadd0.
    - rewrite (foldr_dadd1 (k0 := k)) ?iota_uniq ?mem_iota //=.
      + rewrite nth_lamg // eqxx dmul1l (evd_D0 fn) ?dmul0r ?dadd0 ?evd_g //.
        by apply/negP => /(wf_g W Hk).
      + move=> j Hj Hjk; rewrite mem_iota /= in Hj; rewrite nth_lamg // (_ : (gsym j == gsym k) = false).
          by rewrite dmul0l dadd0l (evd_D0 fn) ?dmul0r //; apply/negP => /(wf_g W Hj).
        by apply/eqP => -[E]; rewrite E eqxx in Hjk.
    - move=> j; rewrite mem_iota /= add0n size_map => Hj.
      rewrite nth_lamx // (nth_map (usym 0)) //=.
      rewrite dmul0l dadd0l (_ : (_ == gsym k) = false) ?dmul0r //.
      by apply/eqP => E; have := user_x (mem_nth (usym 0) Hj); rewrite E.
  Qed.

  Lemma lagr_lx i : (i < nx)%N -> evd rz (D (xsym i) (lagr R)) = (nth 0 x i, dx_ i).
  Proof.
    move=> Hi; rewrite /lagr /=.
    rewrite (evd_D0 fn) ?dadd0l; last by apply/negP => /(wf_f W).
    rewrite (evd_D_dotex _ _ _ _ size_lam_g) (evd_D_dotex _ _ _ _ szx).
    rewrite [foldr _ _ (iota 0 (size (n_g R)))]foldr_dadd0 ?dadd0l.
    - rewrite (foldr_dadd1 (k0 := i)) ?iota_uniq ?mem_iota ?size_map //=.
      + rewrite nth_lamx // eqxx dmul1l (nth_map (usym 0)) //= (_ : (_ == xsym i) = false) ?dmul0r ?dadd0.
          rewrite rz_user ?user_x ?mem_nth // /rho /moved mem_nth // index_uniq ?uniq_x //.
        by apply/eqP => E; have := user_x (mem_nth (usym 0) Hi); rewrite E.
      + move=> j Hj Hji; rewrite mem_iota /= in Hj; rewrite nth_lamx // (_ : (xsym j == xsym i) = false).
          rewrite dmul0l dadd0l (nth_map (usym 0)) //= (_ : (_ == xsym i) = false) ?dmul0r //.
          by apply/eqP => E; have := user_x (mem_nth (usym 0) Hj); rewrite E.
        by apply/eqP => -[E]; rewrite E eqxx in Hji.
    - move=> j; rewrite mem_iota /= add0n => Hj.
      rewrite nth_lamg // (_ : (gsym j == xsym i) = false) // dmul0l dadd0l (evd_D0 fn) ?dmul0r //.
      by apply/negP => /(wf_g W Hj).
  Qed.

  (** A row of the linear system. *)
  Lemma row_eq m : (m < nz)%N ->
    (evd rz (D (nth (usym 0) (zsyms R) m) (lagr R))).2 =
    (\sum_(k < nz) ent (A_of fn dfn R z p) m k * dz k) + \sum_(j < np) ent (B_of fn dfn R z p) m j * dp j.
  Proof.
    move=> Hm; rewrite (evd2 fn dfn (ss := zsyms R ++ n_p R) _ uniq_all).
      rewrite big_cat /=; congr (_ + _).
      - rewrite (big_nth (usym 0)) big_mkord; apply: eq_bigr => k _.
        rewrite /tang mem_nth // index_uniq //; first by move: uniq_all; rewrite cat_uniq => /andP[].
      - rewrite (big_nth (usym 0)) big_mkord; apply: eq_bigr => k _.
        rewrite /tang (mem_nth _ (ltn_ord k)) (index_uniq _ (ltn_ord k) uniq_p).
        rewrite (_ : (_ \in zsyms R) = false) //.
        move: uniq_all; rewrite cat_uniq => /and3P[_ /hasPn H _].
        by apply/negbTE/H/mem_nth.
    by move=> s; rewrite mem_cat negb_or /rz /tang /= => /andP[/negbTE-> /negbTE->].
  Qed.

  (** The tracked conditions, as rows. *)
  Lemma row_x i : (i < nx)%N -> nth (usym 0) (zsyms R) i = nth (usym 0) (n_x R) i.
  Proof. by move=> Hi; rewrite /zsyms nth_cat -/nx Hi. Qed.
  Lemma row_g k : (k < ng)%N -> nth (usym 0) (zsyms R) (nx + k) = gsym k.
  Proof.
    move=> Hk; rewrite /zsyms nth_cat -/nx ltnNge leq_addr /= addKn nth_cat size_lam_g Hk; exact: nth_lamg.
  Qed.
  Lemma row_lx i : (i < nx)%N -> nth (usym 0) (zsyms R) (nx + ng + i) = xsym i.
  Proof.
    move=> Hk; rewrite /zsyms nth_cat -/nx -addnA ltnNge leq_addr /= addKn nth_cat size_lam_g ltnNge leq_addr /= addKn.
    exact: nth_lamx.
  Qed.

  Definition rowv (m : nat) : F :=
    (\sum_(k < nz) ent (A_of fn dfn R z p) m k * dz k) + \sum_(j < np) ent (B_of fn dfn R z p) m j * dp j.

  Lemma tracks_rows (actg actx : nat -> bool) :
    tracks fn dfn R actg actx x lg lx p dx_ dlg_ dlx_ dp <->
    [/\ forall i, (i < nx)%N -> rowv i = 0,
        forall k, (k < ng)%N -> actg k -> rowv (nx + k) = 0,
        forall i, (i < nx)%N -> actx i -> rowv (nx + ng + i) = 0,
        forall k, (k < ng)%N -> ~~ actg k -> dz (nx + k)%N = 0
      & forall i, (i < nx)%N -> ~~ actx i -> dz (nx + ng + i)%N = 0].
  Proof.
    have H1: forall i, (i < nx)%N -> rowv i = (stationarity fn dfn R x lg lx p dx_ dlg_ dlx_ dp i).2.
      move=> i Hi; rewrite /rowv -row_eq ?row_x ?lagr_x // size_zsyms -addnA; exact: ltn_addr.
    have H2: forall k, (k < ng)%N -> rowv (nx + k) = (evd rho (nth (Cst 0) (n_g R) k)).2.
      move=> k Hk; rewrite /rowv -row_eq ?row_g ?lagr_g // size_zsyms -addnA ltn_add2l; exact: ltn_addr.
    have H3: forall i, (i < nx)%N -> rowv (nx + ng + i) = dx_ i.
      by move=> i Hi; rewrite /rowv -row_eq ?row_lx ?lagr_lx // size_zsyms ltn_add2l.
    split=> [[T1 T2 T3 T4 T5]|[T1 T2 T3 T4 T5]]; split=> //.
    - by move=> i Hi; rewrite H1 // T1.
    - by move=> k Hk Ha; rewrite H2 // T2.
    - by move=> i Hi Ha; rewrite H3 // T3.
    - by move=> i Hi; rewrite -H1 // T1.
    - by move=> k Hk Ha; rewrite -/rho -H2 // T2.
    - by move=> i Hi Ha; rewrite -H3 // T3.
  Qed.
End Core.
