(** * What a history of calls says about the next solve of an MPC controller.

    Everything here is read off the observed history (calls and what they returned); nothing looks at the
    controller object. *)
From Verif Require Import Base MpcModel MpcSpec.
Import List.

Definition side_dec (a b : side) : {a = b} + {a <> b}.
Proof. decide equality. Defined.
Definition vtype_dec (a b : vtype) : {a = b} + {a <> b}.
Proof. decide equality. Defined.

(** Position of [q] in a list of positions. *)
Fixpoint index_of (q : nat) (l : list nat) : option nat :=
  match l with
  | [] => None
  | p :: r => if Nat.eq_dec p q then Some 0 else option_map Datatypes.S (index_of q r)
  end.

Section HistSpec.
  Context {E : Env}.
  Notation trace := (list (@call E * res (option (tU E)))).

  (** The entries after [structure[index] = vals]: one value for all addressed entries, or one for each. *)
  Definition assign {V} (t : vtype) (i : tInd E) (vals : list V) (f : nat -> V) (q : nat) : V :=
    match resolve E t i with
    | Ok pos =>
        match index_of q pos with
        | Some k => match vals with [v] => v | _ => nth k vals (f q) end
        | None => f q
        end
    | Err _ => f q
    end.

  Definition no_bound (s : side) : ext (tR E) := match s with Lower => MInf | Upper => PInf end.

  (** The bound of entry [q]: assigned last, or none. *)
  Definition bound_of (tr : trace) (s : side) (t : vtype) : nat -> ext (tR E) :=
    fold_left (fun f e => match e with
                          | (KBounds s' t' i v, Ok _) => if side_dec s s' then if vtype_dec t t' then assign t i v f else f else f
                          | _ => f
                          end) tr (fun _ => no_bound s).
  (** The terminal bound of entry [q] of the state. *)
  Definition terminal_of (tr : trace) (s : side) : nat -> ext (tR E) :=
    fold_left (fun f e => match e with
                          | (KTerminal s' i v, Ok _) => if side_dec s s' then assign Vx i v f else f
                          | _ => f
                          end) tr (fun _ => no_bound s).
  (** The scaling factor of entry [q]. *)
  Definition scaling_of (tr : trace) (t : vtype) : nat -> tR E :=
    fold_left (fun f e => match e with
                          | (KScaling t' i v, Ok _) => if vtype_dec t t' then assign t i v f else f
                          | _ => f
                          end) tr (fun _ => one E).
  (** The rate penalty. *)
  Definition rterm_of (tr : trace) : tRt E :=
    fold_left (fun r e => match e with (KRterm kws _, Ok _) => rt_update E r kws | _ => r end) tr (rt_zero E).
  (** The state known last: passed to an accepted step or assigned by the user. *)
  Definition x_of (tr : trace) : tX E :=
    fold_left (fun x e => match e with
                          | (KStep (Good x'), Ok _) => x'
                          | (KX0 (Good x'), Ok _) => x'
                          | _ => x
                          end) tr (x_zero E).

  (** [pr] is the problem defined by the accepted calls. *)
  Definition problem_for (tr : trace) (pr : @problem E) : Prop :=
    objective_of tr = Some (pr_obj pr) /\ pr_rt pr = rterm_of tr /\ pr_nl pr = nlcons_of tr /\
    (forall t q, pr_scal pr t q = scaling_of tr t q) /\ pr_set pr = settings_of tr.

  (** No terminal bound was given on side [s]. *)
  Definition no_terminal (tr : trace) (s : side) : Prop := forall q, q < n_of E Vx -> terminal_of tr s q = no_bound s.
  (** [obs] are the bounds in force: every variable has the bound assigned last; the terminal state has the
      terminal bounds given, or, if none was given on that side and use_terminal_bounds is set, the state bounds. *)
  Definition bounds_for (tr : trace) (obs : @obounds E) : Prop :=
    (forall s t q, ob obs s t q = bound_of tr s t q) /\
    (forall s q, no_terminal tr s -> s_term (settings_of tr) = true -> ob_term obs s q = bound_of tr s Vx q) /\
    (forall s q, ~ no_terminal tr s \/ s_term (settings_of tr) = false -> ob_term obs s q = terminal_of tr s q).

  (** Warm start and multipliers after a history, and the algebraic variables of the last solution. *)
  Inductive warm : trace -> tZ E -> option (tOX E) -> option (tLG E * tLX E) -> Prop :=
  | warm_start : warm [] (z_zero E) None None
  | warm_setup tr z ox l pr v
      (Hw : warm tr z ox l) (Hp : problem_for tr pr) :
      warm (tr ++ [(KSetup, Ok v)]) z (Some (ox_init E pr)) l
  | warm_guess tr z ox l pr v
      (Hw : warm tr z (Some ox) l) (Hp : problem_for tr pr) :
      warm (tr ++ [(KGuess, Ok v)]) z (Some (guess E ox (x_of tr) (prev_input tr) z (pr_scal pr))) l
  | warm_step tr z ox l pr obs x ox' lg lx st
      (Hw : warm tr z (Some ox) l) (Hp : problem_for tr pr) (Hb : bounds_for tr obs)
      (HS : S E pr obs ox l (x, prev_input tr, tvp_force tr (clock tr), p_force tr (clock tr)) = (ox', lg, lx, st)) :
      warm (tr ++ [(KStep (Good x), Ok (Some (scale_u E (pr_scal pr Vu) (ox_u E ox'))))])
           (scale_z E (pr_scal pr Vz) (ox_z E ox')) (Some ox') (Some (lg, lx))
  | warm_other tr z ox l c o
      (Hw : warm tr z ox l) (Hc : match c, o with (KSetup | KGuess | KStep _), Ok _ => False | _, _ => True end) :
      warm (tr ++ [(c, o)]) z ox l.

  (** Ordinary histories in which terminal bounds are set before the setup and no setup call finds slack symbols
      of an earlier one. *)
  Definition regular (tr : trace) : Prop :=
    ordinary tr /\
    forall before c o after, tr = before ++ (c, o) :: after ->
      match c with KTerminal _ _ _ => ~ was_setup before | KSetup => leftover before = false | _ => True end.
End HistSpec.
