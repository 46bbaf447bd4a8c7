(** * Model of do_mpc/controller/_lqr.py (class LQR).

    Numbers are elements of an arbitrary real field (exact arithmetic, not IEEE doubles).
    numpy arrays whose shape is fixed by the model are typed mathcomp matrices; the set points
    [xss]/[uss], whose shape the code itself changes and checks, are plain lists of numbers
    (a numpy column), so that a wrong number of rows is representable.
    [scipy.linalg.solve_discrete_are] is an arbitrary function [dare]. *)
From Verif Require Import Base.
From mathcomp Require Import all_ssreflect all_algebra.
Set Implicit Arguments.
Unset Strict Implicit.
Unset Printing Implicit Defensive.
Local Open Scope ring_scope.

Section Gain.
  Variable F : realFieldType.
  Variables n m : nat.   (* number of states, number of inputs *)

  (** [np.linalg.inv]: raises LinAlgError on a singular matrix (numpy). *)
  Definition np_inv k (M : 'M[F]_k) : res 'M[F]_k :=
    if M \in unitmx then Ok (invmx M) else Err ExcValue.

  (** _lqr.py:170, 178: K = -inv(B'pB+R) B'p A. *)
  Definition gain_of (A : 'M[F]_n) (B : 'M[F]_(n,m)) (R : 'M[F]_m) (p : 'M[F]_n) : res 'M[F]_(m,n) :=
    let! i := np_inv (B^T *m p *m B + R) in
    Ok (- i *m B^T *m p *m A).

  (** _lqr.py:171: temp_pi = Q + A'pA - A'pB inv(B'pB+R) B'pA. *)
  Definition riccati_step (A : 'M[F]_n) (B : 'M[F]_(n,m)) (Q : 'M[F]_n) (R : 'M[F]_m) (p : 'M[F]_n)
    : res 'M[F]_n :=
    let! i := np_inv (B^T *m p *m B + R) in
    Ok (Q + A^T *m p *m A - A^T *m p *m B *m i *m B^T *m p *m A).

  (** _lqr.py:169-172: the body of [for k in range(n_horizon)], [iters] times; [K] is the python
      local variable, unbound ([None]) before the first iteration. *)
  Fixpoint gain_loop (A : 'M[F]_n) (B : 'M[F]_(n,m)) (Q : 'M[F]_n) (R : 'M[F]_m)
      (iters : nat) (K : option 'M[F]_(m,n)) (p : 'M[F]_n) : res (option 'M[F]_(m,n)) :=
    match iters with
    | O => Ok K
    | S it =>
        let! K' := gain_of A B R p in
        let! p' := riccati_step A B Q R p in
        gain_loop A B Q R it (Some K') p'
    end.

  (** _lqr.py:127-179 discrete_gain.  The assertions on [Q.size], [R.size], [P.size] are
      [0 < n], [0 < m] here because the shapes were checked by set_objective; [P = None] (horizon
      set after set_objective) fails with AttributeError on [self.P.size]. [horizon = None] is the
      infinite horizon. [return K] with an unbound K is UnboundLocalError. *)
  Definition discrete_gain (dare : 'M[F]_n -> 'M[F]_(n,m) -> 'M[F]_n -> 'M[F]_m -> res 'M[F]_n)
      (A : 'M[F]_n) (B : 'M[F]_(n,m)) (Q : 'M[F]_n) (R : 'M[F]_m) (P : option 'M[F]_n)
      (horizon : option nat) : res 'M[F]_(m,n) :=
    let! _ := py_assert ((0 < n)%N && (0 < m)%N) in
    match horizon with
    | Some N =>
        match P with
        | None => Err ExcAttribute
        | Some P =>
            let! K := gain_loop A B Q R N None P in
            match K with None => Err ExcUnbound | Some K => Ok K end
        end
    | None =>
        let! p := dare A B Q R in
        gain_of A B R p
    end.
End Gain.

Section Lqr.
  Variable F : realFieldType.
  Variables n m : nat.
  Variable dare : forall k, 'M[F]_k -> 'M[F]_(k,m) -> 'M[F]_k -> 'M[F]_m -> res 'M[F]_k.

  (** _lqr.py:216-223 (set_rterm): A_rated = [[A,B],[0,I]], B_rated = [[B],[I]]. *)
  Definition A_rated (A : 'M[F]_n) (B : 'M[F]_(n,m)) : 'M[F]_(n + m) := block_mx A B 0 1%:M.
  Definition B_rated (B : 'M[F]_(n,m)) : 'M[F]_(n + m, m) := col_mx B 1%:M.
  (** _lqr.py:483-487 (setup): Q = [[Q,0],[0,R]] and, with a horizon, P = [[P,0],[0,R]]. *)
  Definition Q_rated (Q : 'M[F]_n) (R : 'M[F]_m) : 'M[F]_(n + m) := block_mx Q 0 0 R.

  Inductive mode := Standard | RatePen.
  (** The computed gain: its shape depends on the mode setup was called in. *)
  Inductive gain := Kstd of 'M[F]_(m,n) | Krate of 'M[F]_(m,n + m).

  (** The attributes of an LQR object (_lqr.py:99-118 and those created later).  [A],[B] are those
      of the (discrete, set up) linear model. [xss]/[uss] = None: attribute does not exist. *)
  Record lqr := mkLqr {
    lA : 'M[F]_n; lB : 'M[F]_(n,m);
    lQ : option 'M[F]_n; lR : option 'M[F]_m; lP : option 'M[F]_n;
    ldelR : option 'M[F]_m;
    lmode : mode; lhorizon : option nat;
    lK : option gain; lsetup : bool;
    lxss : option (seq F); luss : option (seq F);
    lt0 : F; ltstep : F; lu0 : 'cV[F]_m;
    ldata : seq (F * 'cV[F]_n * 'cV[F]_m)   (* rows (_time, _x, _u) *)
  }.

  (** _lqr.py:99-118 __init__ (u0 starts as the zero structure of the model). *)
  Definition lqr_init (A : 'M[F]_n) (B : 'M[F]_(n,m)) (horizon : option nat) (tstep : F) : lqr :=
    mkLqr A B None None None None Standard horizon None false None None 0 tstep 0 [::].

  (** _lqr.py:327-415 set_objective: rejected after setup; P defaults to Q for a finite horizon.
      The shape checks hold by typing. *)
  Definition set_objective (Q : 'M[F]_n) (R : 'M[F]_m) (P : option 'M[F]_n) (s : lqr) : res lqr :=
    let! _ := py_assert (~~ lsetup s) in
    let P' := match P, lhorizon s with None, Some _ => Some Q | _, _ => P end in
    Ok (mkLqr (lA s) (lB s) (Some Q) (Some R) P' (ldelR s) (lmode s) (lhorizon s) (lK s) (lsetup s)
              (lxss s) (luss s) (lt0 s) (ltstep s) (lu0 s) (ldata s)).

  (** _lqr.py:181-228 set_rterm (A_rated and B_rated are functions of A and B, recomputed at use). *)
  Definition set_rterm (delR : 'M[F]_m) (s : lqr) : lqr :=
    mkLqr (lA s) (lB s) (lQ s) (lR s) (lP s) (Some delR) RatePen (lhorizon s) (lK s) (lsetup s)
          (lxss s) (luss s) (lt0 s) (ltstep s) (lu0 s) (ldata s).

  (** _lqr.py:464-497 setup.  Modelled for one successful call: python leaves the blocked Q, P in
      the object, and calling setup again in rate mode then fails with numpy's shape error. *)
  Definition setup (s : lqr) : res lqr :=
    let fin K := Ok (mkLqr (lA s) (lB s) (lQ s) (lR s) (lP s) (ldelR s) (lmode s) (lhorizon s)
                           (Some K) true (lxss s) (luss s) (lt0 s) (ltstep s) (lu0 s) (ldata s)) in
    match lQ s, lR s with
    | Some Q, Some R =>
        match lmode s with
        | Standard =>
            let! K := discrete_gain (@dare n) (lA s) (lB s) Q R (lP s) (lhorizon s) in fin (Kstd K)
        | RatePen =>
            if lsetup s then Err ExcValue else
            match ldelR s with
            | None => Err ExcAttribute
            | Some dR =>
                let! P' := match lhorizon s, lP s with
                           | Some _, Some P => Ok (Some (Q_rated P R))
                           | Some _, None => Err ExcValue  (* np.block with a None block *)
                           | None, _ => Ok None
                           end in
                let! K := discrete_gain (@dare (n + m)) (A_rated (lA s) (lB s)) (B_rated (lB s))
                            (Q_rated Q R) dR P' (lhorizon s) in
                fin (Krate K)
            end
        end
    | _, _ => Err ExcAttribute
    end.

  (** _lqr.py:417-462 set_setpoint. A numpy column is the list of its entries; the attributes are
      assigned before the shape assertions are evaluated, so the new state is returned also when
      the assertion fails. *)
  Definition set_setpoint (xss uss : option (seq F)) (s : lqr) : lqr * res unit :=
    if lsetup s then
      let x1 := match xss, lxss s with Some x, _ => x | None, Some x => x | None, None => nseq n 0 end in
      let u1 := match uss, luss s with Some u, _ => u | None, Some u => u | None, None => nseq m 0 end in
      let x2 := match lmode s with RatePen => x1 ++ u1 | Standard => x1 end in
      let u2 := match lmode s with RatePen => nseq m 0 | Standard => u1 end in
      let s' := mkLqr (lA s) (lB s) (lQ s) (lR s) (lP s) (ldelR s) (lmode s) (lhorizon s) (lK s)
                      (lsetup s) (Some x2) (Some u2) (lt0 s) (ltstep s) (lu0 s) (ldata s) in
      let okx := match lmode s with RatePen => size x2 == (n + m)%N | Standard => size x2 == n end in
      (s', if okx && (size u2 == m) then Ok tt else Err ExcAssertion)
    else (s, Err ExcAssertion).

  (** A numpy column of the right height as a matrix. *)
  Definition col_of k (l : seq F) : 'cV[F]_k := \col_i nth 0 l i.

  (** _lqr.py:270-318 make_step.  A gain of the other mode's shape, or a set point of the wrong
      height (left behind by a failed set_setpoint), makes numpy raise ValueError (numpy's broadcasting
      of a set point of height 1 is not modelled). *)
  Definition make_step (x0 : 'cV[F]_n) (s : lqr) : lqr * res 'cV[F]_m :=
    if lsetup s then
      let sr := match lxss s, luss s with
                | None, None => set_setpoint None None s
                | _, _ => (s, Ok tt)
                end in
      let s1 := fst sr in
      match snd sr with
      | Err e => (s1, Err e)
      | Ok _ =>
          let uprev := lu0 s1 in
          let r : res 'cV[F]_m :=
            match lmode s1, lK s1, lxss s1, luss s1 with
            | Standard, Some (Kstd K), Some x, Some u =>
                if (size x == n) && (size u == m)
                then Ok (K *m (x0 - col_of n x) + col_of m u) else Err ExcValue
            | RatePen, Some (Krate K), Some x, Some u =>
                if (size x == (n + m)%N) && (size u == m)
                then Ok (K *m (col_mx x0 uprev - col_of (n + m) x) + col_of m u + uprev)
                else Err ExcValue
            | _, _, _, _ => Err ExcValue
            end in
          match r with
          | Err e => (s1, Err e)
          | Ok u0 =>
              (mkLqr (lA s1) (lB s1) (lQ s1) (lR s1) (lP s1) (ldelR s1) (lmode s1) (lhorizon s1)
                     (lK s1) (lsetup s1) (lxss s1) (luss s1) (lt0 s1 + ltstep s1) (ltstep s1) u0
                     (ldata s1 ++ [:: (lt0 s1, x0, u0)]), Ok u0)
          end
      end
    else (s, Err ExcAssertion).
End Lqr.
