(** * Proofs for C105: the MPC in closed loop with the linear plant (proofs and the definition of the loop). *)
From Coq Require Import Reals Lra Lia List FunctionalExtensionality.
From Verif Require Import Base NlpModel NlpSpec NlpProps RobustProps PlanSpec BestSpec MpcModel MpcSpec MpcProofs MpcHistSpec LinkModel LinkProps LinkBestProps.
From mathcomp Require Import all_ssreflect all_algebra.
From Verif Require Import RealField LqrModel LqrSpec LqrProofs LqrProofs2 LqrProps LqrstabSpec LqrstabProofs MlqrSpec MlqrProofs MlqrProps.
Set Implicit Arguments.
Unset Strict Implicit.
Unset Printing Implicit Defensive.
Import Order.TTheory GRing.Theory Num.Theory.
Local Open Scope ring_scope.

(** The real numbers are archimedean. *)
Fact R_archi : Num.archimedean_axiom R_numDomainType.
Proof.
  move=> x. have E k : (k%:R : R) = INR k. { elim: k => [//|k IH]. rewrite -addn1 natrD IH plus_INR. by []. }
  have Hx : `|x| = Rabs x by [].
  have [Hu _] := archimed (Rabs x). have Hp : Z.le 0 (up (Rabs x)).
  { apply: le_IZR. have := Rabs_pos x. move=> H. apply: Rle_trans H _. exact: Rlt_le. }
  exists (Z.to_nat (up (Rabs x))). rewrite E INR_IZR_INZ Z2Nat.id // Hx. apply/RltE. exact: Hu.
Qed.
Canonical R_archiFieldType := ArchiFieldType R R_archi.

Section Loop.
  Variable L : link.
  Notation mtrace := (seq (@call (link_env L) * res (option (tU (link_env L))))).
  Notation mpcL := (@mpc (link_env L)).

  (** The plant x+ = A x + B u driven by the MPC for k steps: the controller, the state and the inputs. *)
  Fixpoint mpc_loop n m (A : 'M[R]_n) (B : 'M[R]_(n,m)) (m0 : mpcL) (x : 'cV[R]_n) (k : nat) : res (mpcL * 'cV[R]_n * seq 'cV[R]_m) :=
    match k with
    | 0 => Ok (m0, x, [::])
    | k'.+1 => match MpcModel.make_step m0 (Good (vec_of x)) with
              | (m1, Ok u) => let! r := mpc_loop A B m1 (A *m x + B *m cv m u) k' in Ok (fst r, cv m u :: snd r)
              | (_, Err e) => Err e
              end
    end.

  Section Hist.
    Variables (tr : mtrace) (a : arg (tX (link_env L))) (o : res (option (tU (link_env L)))).
    Let tr' := tr ++ [:: (KStep a, o)].
    Lemma h_settings : MpcSpec.settings_of tr' = MpcSpec.settings_of tr.
    Proof. by rewrite /MpcSpec.settings_of fold_left_app. Qed.
    Lemma h_tvp : tvp_force tr' = tvp_force tr.
    Proof. by rewrite /tvp_force /tvp_of fold_left_app. Qed.
    Lemma h_p : p_force tr' = p_force tr.
    Proof. by rewrite /p_force /p_of fold_left_app. Qed.
    Lemma h_obj : objective_of tr' = objective_of tr.
    Proof. by rewrite /objective_of fold_left_app. Qed.
    Lemma h_nl : nlcons_of tr' = nlcons_of tr.
    Proof. by rewrite /nlcons_of fold_left_app. Qed.
    Lemma h_scal : MpcHistSpec.scaling_of tr' = MpcHistSpec.scaling_of tr.
    Proof. apply: functional_extensionality => t. by rewrite /MpcHistSpec.scaling_of fold_left_app. Qed.
    Lemma h_rterm : rterm_of tr' = rterm_of tr.
    Proof. by rewrite /rterm_of fold_left_app. Qed.
    Lemma h_bound s t : bound_of tr' s t = bound_of tr s t.
    Proof. by rewrite /bound_of fold_left_app. Qed.
    Lemma h_terminal s : terminal_of tr' s = terminal_of tr s.
    Proof. by rewrite /terminal_of fold_left_app. Qed.

    Lemma h_problem c : problem_of L tr' c -> problem_of L tr c.
    Proof.
      case. rewrite h_settings h_nl h_obj h_rterm h_scal => P1 P2 P3 P4 P5 P6 P7 P8 P9 P10. split=> //.
      all: try (move=> q; have := P7 q; by rewrite !h_bound).
      all: try (move=> q; have := P8 q; by rewrite !h_bound).
      all: try (move=> q; have := P9 q; by rewrite !h_bound).
      move=> q. have := P10 q. rewrite /terminal_bound /no_terminal h_settings !h_bound !h_terminal. by [].
    Qed.

    Lemma h_setup : was_setup tr -> was_setup tr'.
    Proof. case=> v [H|H]; exists v; [left|right]; apply/in_or_app; by left. Qed.

    Lemma h_regular : regular tr -> regular tr'.
    Proof.
      have key (P : mtrace -> @call (link_env L) -> Prop) : P tr (KStep a) -> (forall b c o1 d, tr = b ++ (c,o1) :: d -> P b c) -> forall b c o1 d, tr' = b ++ (c,o1) :: d -> P b c.
      { move=> H0 H1 b c o1 d. rewrite /tr'. case/lastP: d => [|d e].
        - move=> E. have [<- [<- _]] := app_inj_tail _ _ _ _ E. exact: H0.
        - have -> : b ++ (c, o1) :: rcons d e = (b ++ (c,o1) :: d) ++ [:: e] by rewrite -cats1 -catA.
          move=> E. have [E1 _] := app_inj_tail _ _ _ _ E. exact: (H1 _ _ _ _ E1). }
      case=> H1 H2. split.
      - apply: (key (fun b c => allowed b c)) => //.
      - apply: (key (fun b c => match c with KTerminal _ _ _ => ~ was_setup b | KSetup => leftover b = false | _ => True end)) => //.
    Qed.
  End Hist.

  Lemma ready_step hm m0 tr N x m1 u : mpc_ready (L := L) hm m0 tr N -> MpcModel.make_step m0 (Good x) = (m1, Ok u) ->
    mpc_ready (L := L) (hm ++ [:: KStep (Good x)]) m1 (tr ++ [:: (KStep (Good x), Ok (Some u))]) N /\ m_u0 m1 = u.
  Proof.
    move=> [ND [Rg [He Ws]] Hwf [Hnr Hc] Hsc HN Hcon Hsol] ES.
    split; last first.
    { case: (make_step_cases _ _ _ _ ES) => [[x' [u' [_ [[<-] Hst]]]]|[e [Q _]]]; last by [].
      case: Hst => *. by subst m1. }
    split=> //.
    - split; first exact: h_regular. split; last exact: h_setup.
      rewrite exec_snoc He /= /do_call ES. by [].
    - rewrite h_scal. exact: Hsc.
    - by rewrite h_settings.
    - rewrite h_nl. exact: Hcon.
    - move=> c xx u0 t ox l /h_problem PO. rewrite h_tvp h_p. exact: Hsol.
  Qed.

  Section Follow.
    Variables n m : nat.
    Variables (A : 'M[R]_n) (B : 'M[R]_(n,m)) (Q P : 'M[R]_n) (W : 'M[R]_m) (xss : 'cV[R]_n) (uss : 'cV[R]_m).
    Hypothesis HL : linear_model A B (k_mdl L).

    Lemma mpc_follows k : forall hm m0 tr N (xs : nat -> 'cV[R]_n) (us : nat -> 'cV[R]_m), mpc_ready (L := L) hm m0 tr N.+1 ->
      (forall costs, objective_of tr = Some costs -> quadratic_costs Q W P xss uss costs) ->
      (forall j, xs j.+1 = A *m xs j + B *m us j) ->
      (forall j, let cost := mpc_cost A B Q P W (change_weight m tr) xss uss N.+1 (before (cv m (m_u0 m0)) us j) (xs j) in
         optimal_first_input cost (us j) /\
         forall c t up, problem_of L tr c -> exists vs, (forall ws, cost vs <= cost ws) /\
           inactive c (problem_params (vec_of (xs j), up, tvp_force tr t, p_force tr t)) A B vs) ->
      exists m', mpc_loop A B m0 (xs 0%N) k = Ok (m', xs k, mkseq us k).
    Proof.
      elim: k => [|k IH] hm m0 tr N xs us Rdy HQ Hxs H; first by exists m0.
      have [Ho Hin] := H 0%N. rewrite /before /= in Ho Hin.
      case: (@mpc_first_input L n m A B Q P W xss uss hm m0 tr N (vec_of (xs 0%N)) (us 0%N) Rdy HL HQ) => [c PO||u [m1 [ES Hu]]].
      - rewrite cv_of. exact: Hin.
      - rewrite cv_of. exact: Ho.
      have [Rdy1 Eu] := ready_step Rdy ES.
      have Ev : cv m u = us 0%N. { apply/matrixP => i j. by rewrite mxE Hu ord1. }
      case: (IH _ m1 _ N (fun j => xs j.+1) (fun j => us j.+1) Rdy1).
      - by rewrite h_obj.
      - move=> j. exact: Hxs.
      - move=> j. have [H1 H2] := H j.+1. rewrite before_shift in H1 H2. rewrite /change_weight h_rterm h_scal Eu Ev.
        split; first exact: H1. move=> c t up /h_problem PO. rewrite h_tvp h_p. exact: H2.
      move=> m' E. exists m'. rewrite /= ES Ev -Hxs E /=. congr (Ok (_, _)).
      by rewrite /mkseq /= -[1%N]/(1 + 0)%N iotaDl -map_comp.
    Qed.
  End Follow.
End Loop.

(** A diagonal weight with positive entries is symmetric and definite. *)
Lemma diag_weight m (d : 'I_m -> R) : (forall i, 0 < d i) -> symmetric (diag_mx (\row_(i < m) d i)) /\ pd (diag_mx (\row_(i < m) d i)).
Proof.
  move=> Hd. split; first by rewrite /symmetric tr_diag_mx.
  move=> y Hy. rewrite /qf.
  have E : (y^T *m diag_mx (\row_(i < m) d i) *m y) 0 0 = \sum_(i < m) (y i 0 ^+ 2 * d i).
  { rewrite mxE. apply: eq_bigr => i _. rewrite mul_mx_diag !mxE. by rewrite mulrAC -expr2. }
  have Hterm (i : 'I_m) : 0 <= y i 0 ^+ 2 * d i. { apply: mulr_ge0; [exact: sqr_ge0|exact: ltW]. }
  rewrite E lt_def sumr_ge0 // andbT. apply/negP => /eqP Z. move/eqP: Hy. apply. apply/matrixP => i j. rewrite !ord1 [RHS]mxE.
  have := psumr_eq0P (fun k _ => Hterm k) Z (i := i) erefl. move/eqP. rewrite mulf_eq0 (gt_eqF (Hd i)) orbF expf_eq0 /=. by move/eqP.
Qed.
