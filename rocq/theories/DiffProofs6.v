(** * Positions of the returned entries; the status flags. *)
From Verif Require Import Base.
From mathcomp Require Import all_ssreflect all_algebra.
From Verif Require Import LinModel DiffModel DiffSpec DiffProofs DiffProofs2 DiffProofs3 DiffProofs4 DiffProofs5.
Set Implicit Arguments.
Unset Strict Implicit.
Unset Printing Implicit Defensive.
Import GRing.Theory Num.Theory.
Local Open Scope ring_scope.

Lemma index_filter_iota (f : nat -> bool) n i : (i < n)%N -> f i ->
  index i [seq j <- iota 0 n | f j] = count f (iota 0 i).
Proof.
  move=> Hi Hf.
  have -> : iota 0 n = iota 0 i ++ i :: iota i.+1 (n - i.+1).
    by rewrite -{1}(subnKC Hi) addSn -addnS iotaD.
  rewrite filter_cat index_cat mem_filter mem_iota /= add0n ltnn andbF Hf /= eqxx addn0.
  by rewrite size_filter.
Qed.

Lemma count_iota_nth (T : Type) (d : T) (f : T -> bool) (l : seq T) i : (i <= size l)%N ->
  count (fun j => f (nth d l j)) (iota 0 i) = count f (take i l).
Proof.
  move=> Hi; have -> : take i l = [seq nth d l j | j <- iota 0 i].
    apply: (@eq_from_nth _ d); first by rewrite size_map size_iota size_takel.
    move=> k; rewrite size_takel // => Hk.
    by rewrite (nth_map 0%N) ?size_iota // nth_iota // add0n nth_take.
  by rewrite count_map; apply: eq_count.
Qed.

Lemma index_fidx (T : eqType) (d : T) (f : T -> bool) (l : seq T) i : i \in fidx d f l ->
  index i (fidx d f l) = count f (take i l).
Proof.
  rewrite mem_fidx => /andP[Hi Hf].
  by rewrite /fidx (index_filter_iota (f := fun j => f (nth d l j))) // count_iota_nth // ltnW.
Qed.

Section ActSorted.
  Variable F : realFieldType.
  Variables (d : differ F) (tol : F) (q : point F).
  Let ng := size (n_g (d_nlp d)).
  Let nx := size (n_x (d_nlp d)).
  Hypotheses (Hg : size (q_g q) = ng) (Hx : size (q_x q) = nx).

  (** Constraint number r (constraints first, then variable bounds) is active. *)
  Definition act_r (r : nat) : bool :=
    if (r < ng)%N then act_g tol (d_bnd d) (q_g q) r else act_x tol (d_bnd d) (q_x q) (r - ng).

  Lemma active_cons_filter : active_cons d tol q = [seq r <- iota 0 (ng + nx) | act_r r].
  Proof.
    rewrite iotaD filter_cat add0n /active_cons; congr (_ ++ _).
    - rewrite /where_active Hg; apply: eq_in_filter => k; rewrite mem_iota /= add0n => Hk.
      by rewrite /act_r Hk.
    - rewrite /where_active Hx -/ng -{2}(addn0 ng) iotaDl filter_map.
      rewrite (eq_map (fun i => addnC i ng)); congr map; apply: eq_in_filter => i _.
      by rewrite /act_r /= ltnNge leq_addr /= addKn.
  Qed.

  Lemma index_active r : (r < ng + nx)%N -> act_r r ->
    index r (active_cons d tol q) = count act_r (iota 0 r).
  Proof. by move=> Hr Ha; rewrite active_cons_filter index_filter_iota. Qed.

  Lemma mem_active r : (r \in active_cons d tol q) = (r < ng + nx)%N && act_r r.
  Proof. by rewrite active_cons_filter mem_filter mem_iota /= add0n andbC. Qed.
End ActSorted.

Section Inv2.
  Variable F : realFieldType.
  Variable fn : nat -> F -> F.
  Variable dfn : nat -> nat.
  Variable lin : linsolver -> arr F -> arr F -> option (psens F).

  (** Any successful call, whatever the solver did. *)
  Lemma diff_inv2 d st t sol pn t' Mx Ml :
    differentiate fn dfn lin d st t sol pn = (t', Ok (Mx, Ml)) ->
    exists q p,
      [/\ prepare d sol pn = Ok (q, p),
          size (q_lg q) = size (n_g (d_nlp d)) /\ size (q_lx q) = size (n_x (d_nlp d)),
          (s_licq st -> t_licq t' = Some (check_licq fn dfn d (q_x q) p (active_cons d (s_tol st) q)))
          /\ (s_sc st -> t_sc t' = Some (check_sc (s_tol st) (q_lg q ++ q_lx q) (active_cons d (s_tol st) q))),
          s_lamzero st = false
        & exists qs, [/\ (qs, t_solved t') =
             (let A := redA fn dfn d (s_tol st) q p in let B := redB fn dfn d (s_tol st) q p in
              let (q1, ok1) := solve_lse lin A B (s_solver st) in
              if ~~ ok1 && s_fallback st then solve_lse lin A B "lstsq" else (q1, ok1)) &
             exists dx dl, map_sens d qs (active_cons d (s_tol st) q) = Ok (dx, dl) /\ (Mx, Ml) = expanded d (dx, dl)]].
  Proof.
    rewrite /differentiate => H; move: H.
    case Epr: (prepare d sol pn) => [[q p]|//].
    rewrite /extract; case Elz: (s_lamzero st) => //=.
    rewrite /same_len; case: eqP => //= Hlg; case: eqP => //= Hlx.
    rewrite -/(redA fn dfn d (s_tol st) q p) -/(redB fn dfn d (s_tol st) q p) => H.
    have Hsx: size (q_x q) = size (n_x (d_nlp d)).
      move: Epr; rewrite /prepare; case: sol H => // s H; case: (o_x s) => // x0; case: (o_lg s) => // lg0.
      case: (o_lx s) => // lx0; case: (o_g s) => // g0; case: (match pn with PNum v => _ | PCol v => _ | POther => _ end) => //= p0.
      case: (match d_red d with Some r => _ | None => _ end) => //= [[[x1 lx1] p1]].
      case: ifP => // _; rewrite /same_len; case: eqP => //= _; case: eqP => //= E [<- _] //.
    exists q, p; move: H.
    rewrite [solve_lse lin _ _ (s_solver st)]surjective_pairing.
    set r1 := solve_lse _ _ _ (s_solver st).
    rewrite [if ~~ r1.2 && s_fallback st then _ else _]surjective_pairing.
    set r2 := if ~~ r1.2 && s_fallback st then _ else _.
    case: (if s_resid st then _ else _) => [rs|//] [Ht' Hm]; split=> //.
    - rewrite -Ht' /= take_size_cat // drop_size_cat //; split; by move=> ->.
    - exists r2.1; rewrite -Ht' /=; split; first by rewrite /= -surjective_pairing.
      move: Hm; case: (map_sens d r2.1 _) => //= -[dx dl] [Hm]; exists dx, dl; split=> //.
  Qed.
End Inv2.
