(** * Model of the configuration of the rate penalty (do_mpc/controller/_mpc.py: MPC.set_rterm, and where _prepare_nlp picks the
    penalty up).

    Simplifications: everything else that is configured is hidden in one bit of the call of setup / prepare_nlp (whether the rest
    of the preparation succeeds); the value of a keyword is a number, a numpy array (its entries) or something else; warnings have
    no effect (they are issued if set_rterm was never called or a factor is negative, _mpc.py:883-895). *)
From Coq Require Import Reals.
From Verif Require Import Base NlpModel.
Local Open Scope R_scope.

(** The value of a keyword argument. *)
Inductive fval := FNum (r : R) | FArr (l : list R) | FOther.
(** The positional argument rterm: no attribute shape; another shape than (1,1); shape (1,1) but no casadi type; casadi
    expression of symbols other than state, input, previous input, algebraic states, tvp, parameters; or a good one. *)
Inductive rexpr := ENoShape | EShape | ENumpy | EForeign | EGood (f : vec -> vec -> vec -> vec -> vec -> vec -> R).

(** The attributes rterm_fun (with its flag), rterm_factor, the flag setup; the penalty in the objective that _prepare_nlp built
    and in the one the solver was created for. *)
Record rstate := mkRS { rs_setup : bool; rs_fun : option (vec -> vec -> vec -> vec -> vec -> vec -> R); rs_fac : vec;
  rs_pend : option rterm_kind; rs_prob : option rterm_kind }.

(** _mpc.py:157-180 __init__: rterm_factor = _u(0), flags. *)
Definition rs_init : rstate := mkRS false None vzero None None.

(** The structure model._u: names and numbers of entries (names are distinct, model/_model.py:534-602 set_variable). *)
Definition layout := list (string * nat).
Fixpoint place_of (l : layout) (key : string) (start : nat) : option (nat * nat) :=
  match l with
  | [] => None
  | (k, n) :: l' => if String.eqb k key then Some (start, n) else place_of l' key (start + n)
  end.

(** _mpc.py:663-666: checks of one keyword and [rterm_factor[key] = val] (a number, or an array with one entry or one per entry). *)
Definition assign (l : layout) (fac : vec) (key : string) (v : fval) : res vec :=
  match place_of l key 0 with
  | None => Err ExcAssertion
  | Some (s, n) =>
      match v with
      | FOther => Err ExcAssertion
      | FNum r => Ok (fun a => if (s <=? a)%nat && (a <? s + n)%nat then r else fac a)
      | FArr [r] => Ok (fun a => if (s <=? a)%nat && (a <? s + n)%nat then r else fac a)
      | FArr vs => if Nat.eqb (List.length vs) n then Ok (fun a => if (s <=? a)%nat && (a <? s + n)%nat then nth (a - s) vs 0 else fac a)
                   else Err ExcGeneric
      end
  end.
(** _mpc.py:662-666: the loop over the keywords; those before the failing one stay assigned. *)
Fixpoint assign_all (l : layout) (kws : list (string * fval)) (fac : vec) : vec * res unit :=
  match kws with
  | [] => (fac, Ok tt)
  | (k, v) :: r => match assign l fac k v with Ok fac' => assign_all l r fac' | Err e => (fac, Err e) end
  end.

(** _mpc.py:645-668 set_rterm; with the positional argument the keywords are not looked at. *)
Definition set_rate (l : layout) (e : option rexpr) (kws : list (string * fval)) (m : rstate) : rstate * res unit :=
  if rs_setup m then (m, Err ExcAssertion)
  else match e with
  | Some ENoShape => (m, Err ExcAttribute)
  | Some EShape => (m, Err ExcAssertion)
  | Some ENumpy => (m, Err ExcGeneric)
  | Some EForeign => (m, Err ExcGeneric)
  | Some (EGood f) => (mkRS (rs_setup m) (Some f) (rs_fac m) (rs_pend m) (rs_prob m), Ok tt)
  | None => let '(fac, r) := assign_all l kws (rs_fac m) in (mkRS (rs_setup m) (rs_fun m) fac (rs_pend m) (rs_prob m), r)
  end.

(** _mpc.py:1241-1255 in _prepare_nlp: the penalty that enters the objective. *)
Definition picked (m : rstate) : rterm_kind := match rs_fun m with Some f => RUser f | None => RDefault (rs_fac m) end.
(** _mpc.py:1087-1281 _prepare_nlp; [ok]: the rest of it does not raise. *)
Definition rprepare (ok : bool) (m : rstate) : rstate * res unit :=
  if ok then (mkRS (rs_setup m) (rs_fun m) (rs_fac m) (Some (picked m)) (rs_prob m), Ok tt) else (m, Err ExcGeneric).
(** _mpc.py:1283-1309 _create_nlp. *)
Definition rcreate (m : rstate) : rstate * res unit :=
  match rs_pend m with
  | None => (m, Err ExcAttribute)
  | Some k => (mkRS true (rs_fun m) (rs_fac m) (rs_pend m) (Some k), Ok tt)
  end.
(** _mpc.py:924-945 setup. *)
Definition rsetup (ok : bool) (m : rstate) : rstate * res unit :=
  match rprepare ok m with (m1, Ok _) => rcreate m1 | (m1, Err e) => (m1, Err e) end.

(** Calls by a user who catches exceptions. *)
Inductive rcall := CRate (e : option rexpr) (kws : list (string * fval)) | CPrepare (ok : bool) | CCreate | CSetup (ok : bool).
Definition rdo (l : layout) (m : rstate) (c : rcall) : rstate * res unit :=
  match c with CRate e k => set_rate l e k m | CPrepare ok => rprepare ok m | CCreate => rcreate m | CSetup ok => rsetup ok m end.
Fixpoint rexec (l : layout) (h : list rcall) (m : rstate) : rstate * list (rcall * res unit) :=
  match h with
  | [] => (m, [])
  | c :: r => let '(m1, o) := rdo l m c in let '(m2, tr) := rexec l r m1 in (m2, (c, o) :: tr)
  end.
