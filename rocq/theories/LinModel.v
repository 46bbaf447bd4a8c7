(** * Model of do_mpc/model/_linearmodel.py (class LinearModel) and do_mpc/model/_linearize.py.

    Numbers are elements of an arbitrary real field (exact arithmetic).  State and input are the
    stacked vectors of length [n] and [m]; how the named entries are assembled into these vectors is
    the subject of MdlModel.v and not repeated here.  The noise variables w and v enter additively and
    are set to zero throughout (as get_linear_system_matrices does).  A scalar expression is an affine
    function of (x,u) whose constant part may depend on the parameters (tvp, p); an expression
    with a Jacobian that is not constant is [None]. *)
From Verif Require Import Base.
From mathcomp Require Import all_ssreflect all_algebra.
From Verif Require Import LqrModel.
Set Implicit Arguments.
Unset Strict Implicit.
Unset Printing Implicit Defensive.
Import GRing.Theory.
Local Open Scope ring_scope.

Section Arr.
  Variable F : realFieldType.
  (** A two-dimensional numpy array: shape and entries. *)
  Record arr := Arr { nr : nat; nc : nat; ent : nat -> nat -> F }.
  Definition mx_of r c (a : arr) : 'M[F]_(r,c) := \matrix_(i, j) ent a i j.
  Definition rows_of c (a : arr) : seq 'rV[F]_c := [seq \row_j ent a i j | i <- iota 0 (nr a)].
  Definition of_rows c (l : seq 'rV[F]_c) : arr :=
    Arr (size l) c (fun i j => if insub j is Some j' then (nth 0 l i) 0 j' else 0).
  Definition of_mx r c (M : 'M[F]_(r,c)) : arr :=
    Arr r c (fun i j => if (insub i, insub j) is (Some i', Some j') then M i' j' else 0).
End Arr.

Section Lin.
  Variable F : realFieldType.
  Variables n m : nat.   (* x.size, u.size *)
  Variable par : Type.   (* values of tvp and p *)

  Inductive mtype := Continuous | Discrete.

  (** An affine scalar expression of (x,u). *)
  Record aff := Aff { ax : 'rV[F]_n; au : 'rV[F]_m; a0 : par -> F }.
  Definition ev (e : aff) (x : 'cV[F]_n) (u : 'cV[F]_m) (q : par) : F :=
    (ax e *m x + au e *m u) 0 0 + a0 e q.

  (** The matrices stored by setup; C and D as lists of rows (one per measured number). *)
  Record sys := mkSys { sA : 'M[F]_n; sB : 'M[F]_(n,m); sC : seq 'rV[F]_n; sD : seq 'rV[F]_m }.

  (** The attributes of a LinearModel: right-hand sides set so far (one element per complete set of
      set_rhs calls, the last one counts), named measurements, the stored matrices once set up, and
      the attributes xss, uss written by get_steady_state. *)
  Record lin := mkLin {
    l_type : mtype;
    l_rhs : seq (seq aff);
    l_meas : seq (string * seq aff);
    l_sys : option sys;
    l_ss : option ('cV[F]_n * 'cV[F]_m) }.

  (** _linearmodel.py:99-102 with symvar_type SX. *)
  Definition lin_init (t : mtype) : lin := mkLin t [::] [::] None None.

  Definition setup_done (s : lin) : bool := if l_sys s is Some _ then true else false.

  (** _linearmodel.py:136-148 set_rhs, for all states at once. *)
  Definition lin_set_rhs (es : seq (option aff)) (s : lin) : res lin :=
    if all isSome es then
      let! _ := py_assert (~~ setup_done s) in
      Ok (mkLin (l_type s) (rcons (l_rhs s) (pmap id es)) (l_meas s) (l_sys s) (l_ss s))
    else Err ExcValue.

  (** _linearmodel.py:150-162 set_meas. *)
  Definition lin_set_meas (name : string) (es : seq (option aff)) (s : lin) : res lin :=
    if all isSome es then
      let! _ := py_assert (~~ setup_done s) in
      Ok (mkLin (l_type s) (l_rhs s) (rcons (l_meas s) (name, pmap id es)) (l_sys s) (l_ss s))
    else Err ExcValue.

  Definition lin_aff (r : 'rV[F]_n) (q : 'rV[F]_m) : aff := Aff r q (fun=> 0).

  (** _linearmodel.py:204-208: y_meas = C @ x, y_meas + D @ u.  [None + ...] is a TypeError; a sum of
      two columns of different height is refused by CasADi unless one of them has height 1, which
      is then spread. *)
  Definition y_meas (C D : option (arr F)) : res (option (seq aff)) :=
    match C, D with
    | None, None => Ok None
    | None, Some _ => Err ExcType
    | Some C, None =>
        if nc C == n then Ok (Some [seq lin_aff r 0 | r <- rows_of n C]) else Err ExcGeneric
    | Some C, Some D =>
        if (nc C == n) && (nc D == m) then
          if nr C == nr D then
            Ok (Some [seq lin_aff rr.1 rr.2 | rr <- zip (rows_of n C) (rows_of m D)])
          else if nr D == 1%N then
            Ok (Some [seq lin_aff r (head 0 (rows_of m D)) | r <- rows_of n C])
          else if nr C == 1%N then
            Ok (Some [seq lin_aff (head 0 (rows_of n C)) r | r <- rows_of m D])
          else Err ExcGeneric
        else Err ExcGeneric
    end.

  (** _linearmodel.py:215-227: x_next = A @ x (+ B @ u). *)
  Definition x_next (A B : option (arr F)) : res (option (seq aff)) :=
    let! a := match A with
              | None => Ok None
              | Some A => if (nr A == n) && (nc A == n) then Ok (Some (mx_of n n A)) else Err ExcValue
              end in
    match B with
    | None => Ok (omap (fun M => [seq lin_aff (row i M) 0 | i <- enum 'I_n]) a)
    | Some B =>
        if (nr B == n) && (nc B == m) then
          match a with
          | None => Err ExcType
          | Some M => Ok (Some [seq lin_aff (row i M) (row i (mx_of n m B)) | i <- enum 'I_n])
          end
        else Err ExcValue
    end.

  (** CasADi's reaction to repeated entry names in a structure. *)
  Variable struct_ok : seq string -> bool.

  (** The default measurement (state feedback), see _model.py:936-938; one block for all states. *)
  Definition state_feedback : string * seq aff :=
    ("x"%string, [seq lin_aff (delta_mx 0 i) 0 | i <- enum 'I_n]).

  (** _model.py:1074-1127 get_linear_system_matrices: the Jacobians of right-hand side and measurement. *)
  Definition matrices (rhs meas : seq aff) : sys :=
    mkSys (\matrix_(i, j) ax (nth (lin_aff 0 0) rhs i) 0 j)
          (\matrix_(i, j) au (nth (lin_aff 0 0) rhs i) 0 j)
          [seq ax e | e <- meas] [seq au e | e <- meas].

  (** _linearmodel.py:236 super().setup() and 238-243.  (_model.py:921-1042: measurements default to
      state feedback, structures are created, the right-hand side must be complete.)  A failing
      setup leaves the default measurement behind. *)
  Definition finish (s : lin) : lin * res unit :=
    let me := if l_meas s is [::] then [:: state_feedback] else l_meas s in
    let s1 := mkLin (l_type s) (l_rhs s) me (l_sys s) (l_ss s) in
    if ~~ struct_ok [seq nm.1 | nm <- me] then (s1, Err ExcGeneric)
    else if ~~ struct_ok (nseq (size (l_rhs s)) "noise"%string) then (s1, Err ExcGeneric)
    else match rev (l_rhs s) with
         | [::] => (s1, Err ExcAssertion)
         | rhs :: _ =>
             if size rhs == n
             then (mkLin (l_type s) (l_rhs s) me (Some (matrices rhs (flatten [seq nm.2 | nm <- me]))) (l_ss s), Ok tt)
             else (s1, Err ExcAssertion)
         end.

  (** _linearmodel.py:171-243 setup; the measurement 'y' is added before the shapes of A and B are
      checked. Type checks of the arguments are part of the typing. *)
  Definition lin_setup (A B C D : option (arr F)) (s : lin) : lin * res unit :=
    match y_meas C D with
    | Err e => (s, Err e)
    | Ok ym =>
        let r1 := match ym with
                  | None => Ok s
                  | Some es => lin_set_meas "y" [seq Some e | e <- es] s
                  end in
        match r1 with
        | Err e => (s, Err e)
        | Ok s1 =>
            match x_next A B with
            | Err e => (s1, Err e)
            | Ok xn =>
                let r2 := match xn with
                          | None => Ok s1
                          | Some es => lin_set_rhs [seq Some e | e <- es] s1
                          end in
                match r2 with
                | Err e => (s1, Err e)
                | Ok s2 => if setup_done s2 then (s2, Err ExcKey) else finish s2
                end
            end
        end
    end.

  (** What the set-up model computes: next state (or derivative) and measured numbers, from the
      symbolic expressions it was built of. *)
  Definition lin_rhs (s : lin) (x : 'cV[F]_n) (u : 'cV[F]_m) (q : par) : 'cV[F]_n :=
    \col_i ev (nth (lin_aff 0 0) (last [::] (l_rhs s)) i) x u q.
  Definition lin_meas (s : lin) (x : 'cV[F]_n) (u : 'cV[F]_m) (q : par) : seq F :=
    [seq ev e x u q | e <- flatten [seq nm.2 | nm <- l_meas s]].

  (** scipy.signal.cont2discrete((A,B,C,D), dt, method): arbitrary. *)
  Variable cont2discrete : sys -> F -> string -> res sys.

  (** _linearmodel.py:245-280 discretize. _transfer_variables (_model.py:1046-1071) declares the same
      states and inputs again; auxiliary expressions are not modelled. *)
  Definition discretize (t_step : F) (method : string) (s : lin) : res lin :=
    match l_sys s with
    | None => Err ExcAssertion
    | Some y =>
        if l_type s is Continuous then
          let! d := cont2discrete y t_step method in
          let r := lin_setup (Some (of_mx (sA d))) (Some (of_mx (sB d))) (Some (of_rows (sC d))) None
                             (lin_init Discrete) in
          let! _ := snd r in Ok (fst r)
        else Err ExcAssertion
    end.

  (** Argument of get_steady_state: None, a column array with these entries, anything else. *)
  Inductive ssarg := SNone | SArr (l : seq F) | SOther.
  (** np.all(v) == None *)
  Definition is_none (v : ssarg) : bool := if v is SNone then true else false.

  (** Returned: steady state states, steady state inputs, or None (both arguments given). *)
  Inductive ssret := RX (x : 'cV[F]_n) | RU (u : 'cV[F]_m) | RNone.

  (** np.linalg.pinv *)
  Variable pinv : 'M[F]_(n,m) -> 'M[F]_(m,n).
  (** np.linalg.inv(B) for a square array B; B has shape (n,m). *)
  Definition inv_sq (B : 'M[F]_(n,m)) : res 'M[F]_(m,n) :=
    match n =P m with
    | ReflectT e =>
        let! M := np_inv (castmx (erefl n, esym e) B) in Ok (castmx (e, erefl n) M)
    | ReflectF _ => Err ExcValue
    end.

  (** _linearmodel.py:282-326 get_steady_state.  An array of the wrong height makes the product raise
      ValueError. *)
  Definition get_steady_state (xss uss : ssarg) (s : lin) : lin * res ssret :=
    let store x u := mkLin (l_type s) (l_rhs s) (l_meas s) (l_sys s) (Some (x, u)) in
    match l_sys s with
    | None => (s, Err ExcAssertion)
    | Some y =>
        if l_type s is Discrete then
          let A := sA y in let B := sB y in
          if is_none xss && (\rank A == n) then
            match uss with
            | SArr l =>
                match np_inv (1%:M - A) with
                | Err e => (s, Err e)
                | Ok M =>
                    if size l == m then
                      let u := col_of m l in let x := M *m B *m u in (store x u, Ok (RX x))
                    else (s, Err ExcValue)
                end
            | _ => (s, Err ExcAssertion)
            end
          else if is_none xss then (s, Err ExcValue)
          else if is_none uss && (n != m) then
            match xss with
            | SArr l =>
                if size l == n then
                  let x := col_of n l in let u := pinv B *m (1%:M - A) *m x in (store x u, Ok (RU u))
                else (s, Err ExcValue)
            | _ => (s, Err ExcAssertion)
            end
          else if is_none uss then
            match xss with
            | SArr l =>
                match inv_sq B with
                | Err e => (s, Err e)
                | Ok M =>
                    if size l == n then
                      let x := col_of n l in let u := M *m (1%:M - A) *m x in (store x u, Ok (RU u))
                    else (s, Err ExcValue)
                end
            | _ => (s, Err ExcAssertion)
            end
          else (s, Ok RNone)
        else (s, Err ExcAssertion)
    end.

  (** A (nonlinear) model as linearize sees it: set up or not, type, number of algebraic states, and the
      result of get_linear_system_matrices at the given point; [None]: at least one matrix is still
      symbolic. *)
  Record nlmodel := mkNl { n_setup : bool; n_type : mtype; n_z : nat; n_sys : option sys }.

  Definition identity_rows : seq 'rV[F]_n := [seq delta_mx 0 i | i <- enum 'I_n].

  (** _linearize.py:28-102. *)
  Definition linearize (mo : nlmodel) : res lin :=
    let! _ := py_assert (n_setup mo) in
    let! _ := py_assert (n_z mo == 0%N) in
    match n_sys mo with
    | None => Err ExcGeneric   (* NotImplementedError *)
    | Some y =>
        let C := if sC y == identity_rows then None else Some (of_rows (sC y)) in
        let D := if (size (sD y) == n) && all (fun r => r == 0) (sD y) then None else Some (of_rows (sD y)) in
        let r := lin_setup (Some (of_mx (sA y))) (Some (of_mx (sB y))) C D (lin_init (n_type mo)) in
        let! _ := snd r in Ok (fst r)
    end.
End Lin.
