(** * Removing unused variables; the differentiate method. *)
From Verif Require Import Base.
From mathcomp Require Import all_ssreflect all_algebra.
From Verif Require Import LinModel DiffModel DiffSpec DiffProofs DiffProofs2 DiffProofs3.
Set Implicit Arguments.
Unset Strict Implicit.
Unset Printing Implicit Defensive.
Import GRing.Theory Num.Theory.
Local Open Scope ring_scope.

Section Gather.
  Variables (T : eqType) (d : T) (f : T -> bool) (l : seq T).
  Definition fidx := [seq i <- iota 0 (size l) | f (nth d l i)].

  Lemma gather_filter : gather d l fidx = filter f l.
  Proof.
    rewrite /gather /fidx -[RHS](congr1 (filter f) (mkseq_nth d l)) /mkseq filter_map.
    by congr map.
  Qed.
  Lemma mem_fidx i : (i \in fidx) = (i < size l)%N && f (nth d l i).
  Proof. by rewrite mem_filter mem_iota /= add0n andbC. Qed.
  Lemma fidx_uniq : uniq fidx. Proof. by rewrite filter_uniq // iota_uniq. Qed.
  Lemma size_gather_fidx : size (gather d l fidx) = size fidx. Proof. by rewrite size_map. Qed.
  Lemma nth_gather (U : Type) (e : U) (v : seq U) i' : (i' < size fidx)%N ->
    nth e (gather e v fidx) i' = nth e v (nth 0%N fidx i').
  Proof. by move=> H; rewrite /gather (nth_map 0%N). Qed.
  Lemma index_gather s : uniq l -> s \in l -> f s ->
    index (index s l) fidx = index s (gather d l fidx) /\ (index s l \in fidx).
  Proof.
    move=> Hu Hs Hf.
    have Hin: index s l \in fidx by rewrite mem_fidx index_mem Hs nth_index.
    split=> //; set i' := index _ fidx.
    have Hi': (i' < size fidx)%N by rewrite index_mem.
    have Hn: nth d (gather d l fidx) i' = s by rewrite nth_gather // nth_index // nth_index.
    by rewrite -{1}Hn index_uniq ?size_gather_fidx // gather_filter filter_uniq.
  Qed.
  Lemma nth_fidx_lt i' : (i' < size fidx)%N -> (nth 0%N fidx i' < size l)%N.
  Proof. by move=> H; have := mem_nth 0%N H; rewrite mem_fidx => /andP[]. Qed.
End Gather.

Section Lift.
  Variable F : realFieldType.
  Variable fn : nat -> F -> F.
  Variable dfn : nat -> nat.
  Variables (P : nlp F) (b : bnd F) (W : wf P b).
  Let detx := det_idx P (n_x P).
  Let detp := det_idx P (n_p P).
  Let R : nlp F := mkNlp (gather (usym 0) (n_x P) detx) (gather (usym 0) (n_p P) detp) (n_f P) (n_g P).
  Let bR : bnd F := mkBnd (gather None (b_lbx b) detx) (gather None (b_ubx b) detx) (b_lbg b) (b_ubg b).

  Lemma used_enters s : used P s <-> enters P s.
  Proof.
    rewrite /used /enters; split.
      case/orP=> [H|]; first by left.
      by move/(has_nthP (Cst 0)) => [k Hk Ho]; right; exists k.
    case=> [->//|[k Hk Ho]]; apply/orP; right; apply/(has_nthP (Cst 0)); by exists k.
  Qed.

  Lemma n_xR : n_x R = filter (used P) (n_x P). Proof. exact: gather_filter. Qed.
  Lemma n_pR : n_p R = filter (used P) (n_p P). Proof. exact: gather_filter. Qed.
  Lemma size_xR : size (n_x R) = size detx. Proof. by rewrite size_map. Qed.
  Lemma size_pR : size (n_p R) = size detp. Proof. by rewrite size_map. Qed.

  Lemma wfR : wf R bR.
  Proof.
    have Hs v : size (gather None v detx) = size (n_x R) :> nat by rewrite !size_map.
    split=> //=; try exact: Hs; try by case: W.
    - by rewrite -/R -[gather _ _ _]/(n_x R) -[gather _ (n_p P) _]/(n_p R) n_xR n_pR -filter_cat filter_uniq // (wf_uniq W).
    - rewrite -[gather _ _ _]/(n_x R) -[gather _ (n_p P) _]/(n_p R) n_xR n_pR -filter_cat.
      by apply/allP => s; rewrite mem_filter => /andP[_]; apply: (allP (wf_user W)).
  Qed.

  Variables (x lg lx p : seq F) (dx dlg dlx dp : nat -> F) (actg actx : nat -> bool).
  Let xR := gather 0 x detx.
  Let lxR := gather 0 lx detx.
  Let pR := gather 0 p detp.
  Let dxR i := dx (nth 0%N detx i).
  Let dlxR i := dlx (nth 0%N detx i).
  Let dpR j := dp (nth 0%N detp j).

  Lemma moved_R s : used P s -> moved P x p dx dp s = moved R xR pR dxR dpR s.
  Proof.
    move=> Hu; rewrite /moved n_xR n_pR !mem_filter Hu /= -n_xR -n_pR.
    case: ifP => Hx.
      have [E Hin] := index_gather (usym 0) (uniq_x W) Hx Hu.
      have Hlt: (index (index s (n_x P)) detx < size detx)%N by rewrite index_mem.
      rewrite -[n_x R]/(gather (usym 0) (n_x P) detx) -E /xR /dxR /gather (nth_map 0%N) //.
      by rewrite nth_index.
    case: ifP => Hp //.
    have [E Hin] := index_gather (usym 0) (uniq_p W) Hp Hu.
    have Hlt: (index (index s (n_p P)) detp < size detp)%N by rewrite index_mem.
    rewrite -[n_p R]/(gather (usym 0) (n_p P) detp) -E /pR /dpR /gather (nth_map 0%N) //.
    by rewrite nth_index.
  Qed.

  Lemma evd_R e : (forall s, occ s e -> used P s) ->
    evd fn dfn (moved P x p dx dp) e = evd fn dfn (moved R xR pR dxR dpR) e.
  Proof. by move=> H; apply: evd_ext => s /H; exact: moved_R. Qed.

  Lemma used_f s : occ s (n_f P) -> used P s. Proof. by move=> H; rewrite /used H. Qed.
  Lemma used_g k s : (k < size (n_g P))%N -> occ s (nth (Cst 0) (n_g P) k) -> used P s.
  Proof. by move=> Hk H; rewrite /used; apply/orP; right; apply/(has_nthP (Cst 0)); exists k. Qed.

  Lemma stat_R i' : (i' < size detx)%N ->
    stationarity fn dfn P x lg lx p dx dlg dlx dp (nth 0%N detx i') =
    stationarity fn dfn R xR lg lxR pR dxR dlg dlxR dpR i'.
  Proof.
    move=> Hi; rewrite /stationarity /= -/R.
    have -> : nth (usym 0) (gather (usym 0) (n_x P) detx) i' = nth (usym 0) (n_x P) (nth 0%N detx i').
      by rewrite /gather (nth_map 0%N).
    rewrite evd_R; last by move=> s /occ_D; exact: used_f.
    congr (dadd _ (dadd _ _)).
    - apply: eq_foldr_dadd => k; rewrite mem_iota /= add0n => Hk.
      by rewrite evd_R // => s /occ_D; exact: used_g.
    - by rewrite /lxR /gather (nth_map 0%N).
  Qed.

  Lemma stat_unused i : (i < size (n_x P))%N -> i \notin detx ->
    (stationarity fn dfn P x lg lx p dx dlg dlx dp i).2 = dlx i.
  Proof.
    move=> Hi; rewrite mem_fidx Hi /= /used negb_or => /andP[Hf Hg].
    rewrite /stationarity (evd_D0 fn) // foldr_dadd0 /dadd /= ?add0r //.
    move=> k; rewrite mem_iota /= add0n => Hk.
    rewrite (evd_D0 fn) ?/dmul /= ?mulr0 ?addr0 //.
    by apply: contraNN Hg => Ho; apply/(has_nthP (Cst 0)); exists k.
  Qed.

  Lemma tracks_R :
    tracks fn dfn P actg actx x lg lx p dx dlg dlx dp <->
    tracks fn dfn R actg (fun i' => actx (nth 0%N detx i')) xR lg lxR pR dxR dlg dlxR dpR
    /\ (forall i, (i < size (n_x P))%N -> i \notin detx -> dlx i = 0 /\ (actx i -> dx i = 0)).
  Proof.
    split=> [[T1 T2 T3 T4 T5]|[[T1 T2 T3 T4 T5] T6]].
    - split; [split|].
      + move=> i'; rewrite size_xR => Hi; rewrite -stat_R // T1 //; exact: nth_fidx_lt.
      + move=> k Hk Ha; rewrite -evd_R ?T2 // => s; exact: used_g.
      + move=> i'; rewrite size_xR => Hi Ha; apply: T3 => //; exact: nth_fidx_lt.
      + by move=> k Hk Ha; apply: T4.
      + move=> i'; rewrite size_xR => Hi Ha; apply: T5 => //; exact: nth_fidx_lt.
      + by move=> i Hi Hd; split; [rewrite -(stat_unused Hi Hd) T1|exact: T3].
    - have Hdet i: i \in detx -> exists2 i', (i' < size detx)%N & i = nth 0%N detx i'.
        by move=> H; exists (index i detx); rewrite ?index_mem ?nth_index.
      split.
      + move=> i Hi; case Hd: (i \in detx).
          by have [i' Hi' ->] := Hdet i Hd; rewrite stat_R // T1 // size_xR.
        by rewrite stat_unused ?Hd //; have [] := T6 i Hi (negbT Hd).
      + move=> k Hk Ha; rewrite evd_R ?T2 // => s; exact: used_g.
      + move=> i Hi Ha; case Hd: (i \in detx).
          by move: Ha; have [i' Hi' ->] := Hdet i Hd => Ha; apply: T3 => //; rewrite size_xR.
        by have [_] := T6 i Hi (negbT Hd); apply.
      + by move=> k Hk Ha; apply: T4.
      + move=> i Hi Ha; case Hd: (i \in detx).
          by move: Ha; have [i' Hi' ->] := Hdet i Hd => Ha; apply: T5 => //; rewrite size_xR.
        by have [] := T6 i Hi (negbT Hd).
  Qed.

  Lemma act_x_R tol i' : (i' < size detx)%N -> act_x tol bR xR i' = act_x tol b x (nth 0%N detx i').
  Proof. by move=> H; rewrite /act_x /xR /= /gather !(nth_map 0%N). Qed.
End Lift.
