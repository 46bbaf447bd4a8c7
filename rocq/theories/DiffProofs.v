(** * Lemmas about the differentiator model. *)
From Verif Require Import Base.
From mathcomp Require Import all_ssreflect all_algebra.
From Verif Require Import LinModel DiffModel DiffSpec.
Set Implicit Arguments.
Unset Strict Implicit.
Unset Printing Implicit Defensive.
Import GRing.Theory Num.Theory.
Local Open Scope ring_scope.

Section Proofs.
  Variable F : realFieldType.
  Variable fn : nat -> F -> F.
  Variable dfn : nat -> nat.
  Local Notation ex := (ex F).
  Local Notation nlp := (nlp F).
  Local Notation evd := (evd fn dfn).
  Local Notation eval := (eval fn).
  Local Notation D := (D dfn).

  Lemma dadd0 (a : F * F) : dadd a (0,0) = a.
  Proof. by case: a => a1 a2; rewrite /dadd /= !addr0. Qed.

  Lemma evd1 rho e : (evd rho e).1 = eval (fun s => (rho s).1) e.
  Proof. by elim: e => //= [a -> b ->|a -> b ->|k a ->]. Qed.

  Lemma evd_ext rho rho' e : (forall s, occ s e -> rho s = rho' s) -> evd rho e = evd rho' e.
  Proof.
    elim: e => //= [s H|a IHa b IHb H|a IHa b IHb H|k a IHa H].
    - by apply: H.
    - by rewrite IHa ?IHb // => s Hs; apply: H; rewrite Hs ?orbT.
    - by rewrite IHa ?IHb // => s Hs; apply: H; rewrite Hs ?orbT.
    - by rewrite IHa.
  Qed.

  (** The formal derivative is the derivative: change of an expression along a direction. *)
  Lemma evd2 (ss : seq sym) rho e : uniq ss -> (forall s, s \notin ss -> (rho s).2 = 0) ->
    (evd rho e).2 = \sum_(s <- ss) eval (fun s => (rho s).1) (D s e) * (rho s).2.
  Proof.
    move=> Hu H0; elim: e => /= [c|t|a IHa b IHb|a IHa b IHb|k a IHa].
    - by rewrite big1 // => s _; rewrite mul0r.
    - case Ht: (t \in ss).
      + rewrite (bigD1_seq t) //= eqxx mul1r big1 ?addr0 // => s Hs.
        by rewrite eq_sym (negbTE Hs) mul0r.
      + rewrite H0 ?Ht // big_seq big1 // => s Hs.
        case: eqP => [E|_]; last by rewrite mul0r.
        by rewrite -E Ht in Hs.
    - by rewrite IHa IHb -big_split; apply: eq_bigr => s _; rewrite mulrDl.
    - rewrite IHa IHb !evd1 mulr_sumr mulr_suml -big_split; apply: eq_bigr => s _ /=.
      by rewrite mulrDl addrC mulrA; congr (_ + _); rewrite mulrAC.
    - rewrite IHa evd1 mulr_sumr; apply: eq_bigr => s _; by rewrite mulrA.
  Qed.

  Lemma occ_D t s (e : ex) : occ t (D s e) -> occ t e.
  Proof.
    elim: e => //= [a IHa b IHb|a IHa b IHb|k a IHa].
    - by case/orP=> [/IHa->|/IHb->]; rewrite ?orbT.
    - by case/orP=> [/orP[/IHa->|->]|/orP[->|/IHb->]]; rewrite ?orbT.
    - by case/orP=> // /IHa.
  Qed.

  Lemma evd_D0 rho s (e : ex) : ~~ occ s e -> evd rho (D s e) = (0,0).
  Proof.
    elim: e => //= [t|a IHa b IHb|a IHa b IHb|k a IHa].
    - by move/negbTE->.
    - by rewrite negb_or => /andP[/IHa-> /IHb->]; rewrite /dadd /= addr0.
    - rewrite negb_or => /andP[/IHa-> /IHb->]; rewrite /dadd /dmul /=.
      by rewrite !(mul0r, mulr0, addr0).
    - by move/IHa=> ->; rewrite /dmul /= !(mulr0, addr0).
  Qed.

  (** Sums over kept positions. *)
  Lemma sum_kept (keep : seq nat) n (a T : nat -> F) : uniq keep -> all (fun m => m < n)%N keep ->
    \sum_(k < size keep) a (nth 0%N keep k) * T k =
    \sum_(m < n) a m * (if (m : nat) \in keep then T (index (m : nat) keep) else 0).
  Proof.
    move=> Hu Hb.
    rewrite -(big_mkord xpredT (fun m => a m * (if m \in keep then T (index m keep) else 0))).
    rewrite (eq_bigr (fun m => if m \in keep then a m * T (index m keep) else 0)); last first.
      by move=> m _; case: ifP => // _; rewrite mulr0.
    rewrite -big_mkcond -big_filter.
    have Hp: perm_eq [seq m <- index_iota 0 n | m \in keep] keep.
      apply: uniq_perm => //; first by rewrite filter_uniq // iota_uniq.
      move=> m; rewrite mem_filter mem_index_iota /=.
      by case Hm: (m \in keep) => //=; exact: (allP Hb _ Hm).
    rewrite (perm_big _ Hp) (big_nth 0%N) big_mkord; apply: eq_bigr => k _.
    by rewrite index_uniq.
  Qed.

  Lemma resid2_0 (A B : arr F) S : resid2 A B S = 0 ->
    forall i j, (i < nr A)%N -> (j < nc B)%N -> res_entry A B S i j = 0.
  Proof.
    move=> H i j Hi Hj.
    have Hge: forall i : 'I_(nr A), true -> 0 <= \sum_(j < nc B) (res_entry A B S i j) ^+ 2.
      by move=> i' _; apply: sumr_ge0 => j' _; exact: sqr_ge0.
    move: H => /eqP; rewrite /resid2 psumr_eq0 // => /allP /(_ (Ordinal Hi)).
    rewrite mem_index_enum /= => /(_ isT); rewrite psumr_eq0; last by move=> j' _; exact: sqr_ge0.
    move/allP/(_ (Ordinal Hj)); rewrite mem_index_enum /= => /(_ isT).
    by rewrite sqrf_eq0 => /eqP.
  Qed.

  (** The derivatives of the Lagrangian. *)
  Lemma evd_dotex rho ls es : size ls = size es -> evd rho (dotex ls es) =
    foldr (fun k acc => dadd (dmul (rho (nth (usym 0) ls k)) (evd rho (nth (Cst 0) es k))) acc) (0,0) (iota 0 (size es)).
  Proof.
    elim: ls es => [|l ls IH] [|e es] //= [Hs].
    rewrite -[1%N]/(1 + 0)%N iotaDl foldr_map /dotex /=; congr dadd.
    by rewrite -/(dotex ls es) IH.
  Qed.

  Lemma evd_D_dotex rho s ls es : size ls = size es -> evd rho (D s (dotex ls es)) =
    foldr (fun k acc => dadd (dadd (dmul (evd rho (Cst (if nth (usym 0) ls k == s then 1 else 0))) (evd rho (nth (Cst 0) es k)))
                                   (dmul (rho (nth (usym 0) ls k)) (evd rho (D s (nth (Cst 0) es k))))) acc) (0,0) (iota 0 (size es)).
  Proof.
    elim: ls es => [|l ls IH] [|e es] //= [Hs].
    rewrite -[1%N]/(1 + 0)%N iotaDl foldr_map /dotex /=; congr dadd.
    by rewrite -/(dotex ls es) IH.
  Qed.

  Lemma foldr_dadd0 (T : eqType) (f : T -> F * F) l : (forall k, k \in l -> f k = (0,0)) ->
    foldr (fun k acc => dadd (f k) acc) (0,0) l = (0,0).
  Proof.
    elim: l => //= k l IH H; rewrite IH; last by move=> j Hj; apply: H; rewrite inE Hj orbT.
    by rewrite H ?inE ?eqxx // dadd0.
  Qed.

  Lemma foldr_dadd1 (T : eqType) (f : T -> F * F) l k0 : uniq l -> k0 \in l ->
    (forall k, k \in l -> k != k0 -> f k = (0,0)) ->
    foldr (fun k acc => dadd (f k) acc) (0,0) l = f k0.
  Proof.
    elim: l => //= k l IH /andP[Hk Hu] Hin H.
    have Hz: forall j, j \in l -> j != k0 -> f j = (0,0).
      by move=> j Hj; apply: H; rewrite inE Hj orbT.
    case: (eqVneq k0 k) => [E|Hn].
    - rewrite E foldr_dadd0 ?dadd0 // => j Hj; apply: Hz => //.
      by rewrite E; apply: contraNneq Hk => <-.
    - have Hl: k0 \in l by move: Hin; rewrite inE (negbTE Hn).
      rewrite IH // H ?inE ?eqxx // 1?eq_sym //.
      by rewrite /dadd /= !add0r; case: (f k0).
  Qed.

  Lemma eq_foldr_dadd (T : eqType) (f g : T -> F * F) l : (forall k, k \in l -> f k = g k) ->
    foldr (fun k acc => dadd (f k) acc) (0,0) l = foldr (fun k acc => dadd (g k) acc) (0,0) l.
  Proof.
    elim: l => //= k l IH H; rewrite IH; first by rewrite H ?inE ?eqxx.
    by move=> j Hj; apply: H; rewrite inE Hj orbT.
  Qed.
End Proofs.
