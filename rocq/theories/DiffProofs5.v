(** * The differentiate method: shape of a successful call. *)
From Verif Require Import Base.
From mathcomp Require Import all_ssreflect all_algebra.
From Verif Require Import LinModel DiffModel DiffSpec DiffProofs DiffProofs2 DiffProofs3 DiffProofs4.
Set Implicit Arguments.
Unset Strict Implicit.
Unset Printing Implicit Defensive.
Import GRing.Theory Num.Theory.
Local Open Scope ring_scope.

Section Inv.
  Variable F : realFieldType.
  Variable fn : nat -> F -> F.
  Variable dfn : nat -> nat.
  Variable lin : linsolver -> arr F -> arr F -> option (psens F).

  Definition redA (d : differ F) (tol : F) (q : point F) (p : seq F) : arr F :=
    sub_both (A_of fn dfn (d_nlp d) (q_x q ++ q_lg q ++ q_lx q) p) (keep_idx d (active_cons d tol q)).
  Definition redB (d : differ F) (tol : F) (q : point F) (p : seq F) : arr F :=
    sub_rows (B_of fn dfn (d_nlp d) (q_x q ++ q_lg q ++ q_lx q) p) (keep_idx d (active_cons d tol q)).
  Definition mapped (d : differ F) (act : seq nat) (M : arr F) : oarr F * oarr F :=
    let nx := size (n_x (d_nlp d)) in
    let ng := size (n_g (d_nlp d)) in
    (OArr nx (nc M) (fun i j => Some (ent M i j)),
     OArr (ng + nx) (size (n_p (d_nlp d))) (fun r j => if r \in act then Some (ent M (nx + index r act) j) else Some 0)).
  Definition expanded (d : differ F) (m : oarr F * oarr F) : oarr F * oarr F :=
    match d_red d with Some r => to_full d r m.1 m.2 | None => m end.

  Lemma diff_inv d st t sol pn t' Mx Ml :
    differentiate fn dfn lin d st t sol pn = (t', Ok (Mx, Ml)) -> s_resid st -> t_resid t' = Some (Some 0) ->
    exists q p M,
      [/\ prepare d sol pn = Ok (q, p),
          size (q_lg q) = size (n_g (d_nlp d)) /\ size (q_lx q) = size (n_x (d_nlp d)),
          resid2 (redA d (s_tol st) q p) (redB d (s_tol st) q p) (ent M) = 0 /\ nc M = size (n_p (d_nlp d)),
          (Mx, Ml) = expanded d (mapped d (active_cons d (s_tol st) q) M)
        & s_rank st -> t_rank t' = Some (check_rank (redA d (s_tol st) q p))].
  Proof.
    rewrite /differentiate => H Hrs Hr0; move: H.
    case Epr: (prepare d sol pn) => [[q p]|//].
    rewrite /extract; case: (s_lamzero st) => //=.
    rewrite /same_len; case: eqP => //= Hlg; case: eqP => //= Hlx.
    rewrite -/(redA d (s_tol st) q p) -/(redB d (s_tol st) q p).
    case: (solve_lse _ _ _ _) => q1 ok1.
    case: (if ~~ ok1 && s_fallback st then _ else _) => q2 ok2.
    rewrite Hrs; case Erd: (residuals _ _ q2) => [rs|//] /=.
    move=> [Ht' Hm]; move: Hr0; rewrite -Ht' /= => -[Ers]; subst rs.
    case: q2 Erd Hm => [[M|v]|r c] //= Erd.
    move: Erd; case: ifP => // /andP[/eqP HM1 /eqP HM2] [HM0].
    case: (size _ == _)%B => //= -[Hm].
    exists q, p, M; split=> //.
    by move=> ->.
  Qed.

  (** Entries of the returned matrices as numbers. *)
  Definition fullX (P : nlp F) (M : arr F) (i j : nat) : F :=
    let detx := det_idx P (n_x P) in
    let detp := det_idx P (n_p P) in
    if (i \in detx) && (j \in detp) then ent M (index i detx) (index j detp) else 0.

  Lemma along_det (P : nlp F) (S : nat -> nat -> F) i dp :
    along (size (n_p P)) (fun i j => if j \in det_idx P (n_p P) then S i (index j (det_idx P (n_p P))) else 0) dp i =
    along (size (det_idx P (n_p P))) S (fun j => dp (nth 0%N (det_idx P (n_p P)) j)) i.
  Proof.
    rewrite /along; set det := det_idx P (n_p P).
    have Hb: all (fun m => m < size (n_p P))%N det by apply/allP => m; rewrite mem_fidx => /andP[].
    have := @sum_kept F det (size (n_p P)) dp (S i) (fidx_uniq _ _ _) Hb.
    under eq_bigr do rewrite mulrC.
    move=> ->; apply: eq_bigr => m _; by rewrite mulrC.
  Qed.
End Inv.

Section Main.
  Variable F : realFieldType.
  Variable fn : nat -> F -> F.
  Variable dfn : nat -> nat.
  Variable lin : linsolver -> arr F -> arr F -> option (psens F).
  Variables (P : nlp F) (b : bnd F) (W : wf P b).
  Variables (x lg lx g p : seq F).
  Hypotheses (Sx : size x = size (n_x P)) (Sl : size lx = size (n_x P)) (Sp : size p = size (n_p P)).
  Let nx := size (n_x P).
  Let ng := size (n_g P).
  Let np := size (n_p P).
  Let d := construct P b.
  Let sol := SolDict (mkSol (Some x) (Some lg) (Some lx) (Some g)).
  Variables (st : settings F) (t t' : status F) (Mx Ml : oarr F).
  Hypothesis Hd : differentiate fn dfn lin d st t sol (PCol p) = (t', Ok (Mx, Ml)).
  Hypotheses (Hrs : s_resid st) (Hr0 : t_resid t' = Some (Some 0)).

  Definition entry (o : option F) : F := if o is Some v then v else 0.
  Let DX i j := entry (oent Mx i j).
  Let DL i j := entry (oent Ml i j).
  Let actg := act_g (s_tol st) b g.
  Let actx := act_x (s_tol st) b x.

  Lemma main_shape :
    [/\ onr Mx = nx, onc Mx = np, onr Ml = (ng + nx)%N & onc Ml = np]
    /\ (forall i j, oent Mx i j = Some (DX i j)) /\ (forall i j, oent Ml i j = Some (DL i j)).
  Proof.
    have [q [pR [M [Hpr [Hlg Hlx] [HM HMc] HE _]]]] := diff_inv Hd Hrs Hr0.
    move: HE; rewrite /expanded /mapped /DX /DL; rewrite /d /construct in HMc *.
    move: HMc; case: ifP => _ /= HMc [-> ->] /=.
      by split=> //; split=> i j; repeat case: ifP => // _.
    by split=> //; split=> i j; repeat case: ifP => // _.
  Qed.

  Lemma main_tracks_unique :
    (forall dp, tracks fn dfn P actg actx x lg lx p (along np DX dp) (along np DL dp) (fun i => along np DL dp (ng + i)) dp)
    /\ (s_rank st -> t_rank t' = Some true -> forall dp dx dlg dlx,
         tracks fn dfn P actg actx x lg lx p dx dlg dlx dp ->
         [/\ forall i, (i < nx)%N -> used P (nth (usym 0) (n_x P) i) -> dx i = along np DX dp i,
             forall k, (k < ng)%N -> dlg k = along np DL dp k
           & forall i, (i < nx)%N -> dlx i = along np DL dp (ng + i)]).
  Proof.
    have [q [pR [M [Hpr [Hlg Hlx] [HM HMc] HE HR]]]] := diff_inv Hd Hrs Hr0.
    move: Hpr HE HR HM HMc Hlg Hlx; rewrite /expanded /mapped /DX /DL /redA /redB /d /construct.
    case: ifP => Hred /=.
    - set detx := det_idx P (n_x P); set detp := det_idx P (n_p P).
      rewrite /take_idx; case: ifP => //= Ax; case: ifP => //= Al; case: ifP => //= Ap.
      case: ifP => //= /eqP Hsp.
      rewrite /same_len; case: eqP => //= Hsg; case: eqP => //= Hsx [Eq Ep]; subst q pR => /=.
      set d' := mkDiff _ _ _; move=> [-> ->] HR HM HMc Hlg Hlx /=.
      have W' : wf (d_nlp d') (d_bnd d') by exact: wfR.
      set q := mkPt _ _ _ _ in HM HR *.
      have Hpsz: size (gather 0 p detp) = size (n_p (d_nlp d')) by rewrite !size_map.
      have Hst := @solve_tracks F fn dfn d' (s_tol st) q (gather 0 p detp) W' Hsg Hsx Hlg Hlx Hpsz M HM.
      have Hun := @solve_unique F fn dfn d' (s_tol st) q (gather 0 p detp) W' Hsg Hsx Hlg Hlx Hpsz M HM.
      set act := active_cons d' (s_tol st) q in Hst Hun HM HR *.
      have Hszp: size (n_p (d_nlp d')) = size detp by rewrite size_map.
      have Hszx: size (n_x (d_nlp d')) = size detx by rewrite size_map.
      have HX dp i: along np (fun i j => entry (if (i \in detx) && (j \in detp) then Some (ent M (index i detx) (index j detp)) else Some 0)) dp i
           = if i \in detx then along (size detp) (ent M) (fun j => dp (nth 0%N detp j)) (index i detx) else 0.
        case Hi: (i \in detx); last first.
          by rewrite /along big1 // => j _; rewrite Hi /= mul0r.
        rewrite -(along_det P (ent M)); apply: eq_bigr => j _; rewrite Hi /=.
        by rewrite -/detp; case: ifP.
      set lidx := iota 0 _ ++ _.
      have HL dp r: along np (fun r j => entry (if (r \in lidx) && (j \in detp) then
                 (if index r lidx \in act then Some (ent M (size (n_x (d_nlp d')) + index (index r lidx) act) (index j detp)) else Some 0) else Some 0)) dp r
           = if (r \in lidx) && (index r lidx \in act)
             then along (size detp) (ent M) (fun j => dp (nth 0%N detp j)) (size (n_x (d_nlp d')) + index (index r lidx) act) else 0.
        case: ifP => [/andP[Hr Ha]|Hn]; last first.
          rewrite /along big1 // => j _; case Hr: (r \in lidx); rewrite ?mul0r //=.
          by move: Hn; rewrite Hr /= => ->; case: ifP => _; rewrite mul0r.
        rewrite -(along_det P (ent M)); apply: eq_bigr => j _; rewrite Hr Ha /=.
        by rewrite -/detp; case: ifP.
      have Lg k: (k < ng)%N -> (k \in lidx) /\ index k lidx = k.
        move=> Hk; have Hin: k \in iota 0 ng by rewrite mem_iota.
        rewrite /lidx mem_cat index_cat Hin; split=> //.
        by rewrite -[X in index X _](nth_iota 0%N 0 Hk) index_uniq ?size_iota ?iota_uniq.
      have Lx i: ((ng + i)%N \in lidx) = (i \in detx) /\ index (ng + i)%N lidx = (ng + index i detx)%N.
        rewrite /lidx mem_cat index_cat mem_iota /= add0n -/ng ltnNge leq_addr /= size_iota (addnC ng i).
        by rewrite mem_map_addn index_map_addn addnC.
      have Hactx i': (i' < size detx)%N -> act_x (s_tol st) (d_bnd d') (q_x q) i' = actx (nth 0%N detx i').
        by move=> Hi; exact: act_x_R.
      have Hdetlt i': (i' < size detx)%N -> index (nth 0%N detx i') detx = i'.
        by move=> Hi; rewrite index_uniq // fidx_uniq.
      split.
      + move=> dp; apply/(tracks_R fn dfn W); split.
          have := Hst (fun j => dp (nth 0%N detp j)); rewrite Hszp.
          case=> T1 T2 T3 T4 T5.
          have: tracks fn dfn (d_nlp d') actg (fun i' => actx (nth 0%N detx i')) (q_x q) (q_lg q) (q_lx q) (gather 0 p detp)
              (along (size detp) (ent M) (fun j => dp (nth 0%N detp j)))
              (fun k => if k \in act then along (size detp) (ent M) (fun j => dp (nth 0%N detp j)) (size (n_x (d_nlp d')) + index k act) else 0)
              (fun i => if (i + size (n_g (d_nlp d')))%N \in act then along (size detp) (ent M) (fun j => dp (nth 0%N detp j)) (size (n_x (d_nlp d')) + index (i + size (n_g (d_nlp d')))%N act) else 0)
              (fun j => dp (nth 0%N detp j)).
            split=> //.
            * move=> i Hi Ha; apply: T3 => //; rewrite Hactx // -Hszx //.
            * move=> i Hi Ha; apply: T5 => //; rewrite Hactx // -Hszx //.
          apply: tracks_ext.
          * by move=> i'; rewrite Hszx => Hi; rewrite HX mem_nth // Hdetlt.
          * by move=> k Hk; rewrite HL; have [-> ->] := Lg k Hk.
          * move=> i' Hi0; have Hi: (i' < size detx)%N by rewrite -Hszx.
            have := HL dp (ng + nth 0%N detx i')%N; have [-> ->] := Lx (nth 0%N detx i').
            by rewrite mem_nth //= Hdetlt // (addnC ng i') => E; apply: esym; exact: E.
        move=> i Hi /negbTE Hn; rewrite HX HL Hn; have [-> _] := Lx i; by rewrite Hn.
      + move=> Hrk Htr dp dx dlg dlx /(tracks_R fn dfn W) [Ht Hz].
        have Hrank: check_rank (sub_both (A_of fn dfn (d_nlp d') (q_x q ++ q_lg q ++ q_lx q) (gather 0 p detp)) (keep_idx d' act)).
          by have := HR Hrk; rewrite Htr => -[].
        have [] := Hun (fun j => dp (nth 0%N detp j)) (fun i => dx (nth 0%N detx i)) dlg (fun i => dlx (nth 0%N detx i)) Hrank.
          case: Ht => T1 T2 T3 T4 T5; split=> //.
          * move=> i Hi Ha; apply: T3 => //; rewrite -Hactx // -Hszx //.
          * move=> i Hi Ha; apply: T5 => //; rewrite -Hactx // -Hszx //.
        rewrite Hszp => U1 U2 U3; split.
        * move=> i Hi Hu.
          have Hin: i \in detx by rewrite mem_fidx -/nx Hi.
          have Hlt: (index i detx < size (n_x (d_nlp d')))%N by rewrite Hszx index_mem.
          by have := U1 _ Hlt; rewrite nth_index // HX Hin.
        * by move=> k Hk; rewrite HL; have [-> ->] := Lg k Hk; rewrite U2.
        * move=> i Hi; rewrite HL; have [-> ->] := Lx i; case Hin: (i \in detx) => /=.
            have Hlt: (index i detx < size (n_x (d_nlp d')))%N by rewrite Hszx index_mem.
            by have := U3 _ Hlt; rewrite nth_index // addnC.
          by have [] := Hz i Hi (negbT Hin).
    - case: ifP => //= /eqP Hsp.
      rewrite /same_len; case: eqP => //= Hsg; case: eqP => //= Hsx [Eq Ep]; subst q pR => /=.
      set d' := mkDiff _ _ _; move=> [-> ->] HR HM HMc Hlg Hlx /=.
      set q := mkPt _ _ _ _ in HM HR *.
      have Hst := @solve_tracks F fn dfn d' (s_tol st) q p W Hsg Hsx Hlg Hlx Hsp M HM.
      have Hun := @solve_unique F fn dfn d' (s_tol st) q p W Hsg Hsx Hlg Hlx Hsp M HM.
      set act := active_cons d' (s_tol st) q in Hst Hun HM HR *.
      have HL dp r: along np (fun r j => entry (if r \in act then Some (ent M (size (n_x P) + index r act) j) else Some 0)) dp r
           = if r \in act then along np (ent M) dp (size (n_x P) + index r act) else 0.
        case Hr: (r \in act); first by apply: eq_bigr => j _; rewrite Hr.
        by rewrite /along big1 // => j _; rewrite Hr mul0r.
      split.
      + move=> dp; apply: (tracks_ext _ _ _ (Hst dp)).
        * by [].
        * by move=> k Hk; have E := HL dp k; apply: esym.
        * by move=> i Hi; have E := HL dp (ng + i)%N; rewrite (addnC ng i) in E; apply: esym; rewrite (addnC ng i).
      + move=> Hrk Htr dp dx dlg dlx Ht.
        have Hrank: check_rank (sub_both (A_of fn dfn (d_nlp d') (q_x q ++ q_lg q ++ q_lx q) p) (keep_idx d' act)).
          by have := HR Hrk; rewrite Htr => -[].
        have [U1 U2 U3] := Hun dp dx dlg dlx Hrank Ht; split.
        * by move=> i Hi _; rewrite U1.
        * by move=> k Hk; rewrite HL U2.
        * by move=> i Hi; rewrite HL U3 // addnC.
  Qed.
End Main.
