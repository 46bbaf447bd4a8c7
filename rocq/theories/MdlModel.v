(** * Model of do_mpc/model/_model.py: class Model (declaration protocol and setup).

    Simplifications: variables and expressions are column vectors (a shape is the number of entries, an
    expression the list of its scalar entries); python type checks of arguments (isinstance assertions)
    always succeed; SX and MX are not distinguished. *)
From Verif Require Import Base DataModel.
Local Open Scope string_scope.

(** python's str.replace(old, new) (leftmost, non-overlapping), [old] non-empty; fuel is the length. *)
Fixpoint replace_fuel (fuel : nat) (old new s : string) : string :=
  match fuel with
  | O => s
  | S f =>
      match s with
      | EmptyString => EmptyString
      | String c r =>
          if String.prefix old s
          then new ++ replace_fuel f old new (String.substring (String.length old) (String.length s - String.length old) s)
          else String c (replace_fuel f old new r)
      end
  end.
Definition py_replace (old new s : string) : string := replace_fuel (String.length s) old new s.

(** The five kinds of variables. *)
Inductive kind := Kx | Ku | Kz | Kp | Ktvp.

(** model/_model.py:586-590: the replacement chain. *)
Definition short_name (var_type : string) : string :=
  py_replace "timevarying_parameter" "_tvp"
   (py_replace "parameter" "_p"
     (py_replace "algebraic" "_z"
       (py_replace "inputs" "_u"
         (py_replace "states" "_x" var_type)))).

(** model/_model.py:593: the assertion on var_type. *)
Definition kind_of (var_type : string) : res kind :=
  let s := short_name var_type in
  if String.eqb s "_x" then Ok Kx
  else if String.eqb s "_u" then Ok Ku
  else if String.eqb s "_z" then Ok Kz
  else if String.eqb s "_p" then Ok Kp
  else if String.eqb s "_tvp" then Ok Ktvp
  else Err ExcAssertion.

Section Model.
  Variable E : Type.                       (* scalar symbolic expressions *)
  Variable zero : E.
  Variable plus : E -> E -> E.
  Variable noise_sym : bool -> string -> nat -> E. (* i-th entry of a process (true) or measurement noise variable *)
  (** Creating a CasADi structure from a list of entry names succeeds; CasADi's treatment of repeated
      names (and of the assertions var_dict['name'] == sym_struct.keys()) is this arbitrary function. *)
  Variable struct_ok : list string -> bool.

  (** The functions built by setup: per state the right-hand side, the algebraic equations, the
      auxiliary expressions and the measurements. *)
  Record assembled := mkAsm {
    a_rhs : list (string * list E); a_alg : list (string * list E);
    a_aux : list (string * list E); a_meas : list (string * list E) }.

  (** Where the object is in its life: being declared; a failed setup before the attributes _x, _u ...
      were replaced by structures (BrokenEarly) or after (BrokenLate: flags['setup'] is False; [Some a] if
      the functions exist, [None] if CasADi refused to build one of them); set up. *)
  Inductive phase := Building | BrokenEarly | BrokenLate (a : option assembled) | Ready (a : assembled).

  (** model/_model.py:91-124: the attributes; variables are (name, size). *)
  Record model := mkModel {
    vx : list (string * nat); vu : list (string * nat); vz : list (string * nat);
    vp : list (string * nat); vtvp : list (string * nat);
    vw : list (string * nat); vv : list (string * nat); vy : list (string * nat);
    aux_expr : list (string * list E); y_expr : list (string * list E);
    rhs_list : list (string * list E); alg_list : list (string * list E);
    ph : phase }.

  (** model/_model.py:91-124 __init__. *)
  Definition model_init : model :=
    mkModel [] [("default", 0)] [("default", 0)] [("default", 0)] [("default", 0)]
            [("default", 0)] [("default", 0)] [("default", 0)]
            [("default", [zero])] [] [] [("default", [])] Building.

  Definition vars (k : kind) (m : model) : list (string * nat) :=
    match k with Kx => vx m | Ku => vu m | Kz => vz m | Kp => vp m | Ktvp => vtvp m end.
  Definition add_var (k : kind) (v : string * nat) (m : model) : model :=
    match m with
    | mkModel x u z p t w v' y ae ye rl al f =>
        match k with
        | Kx => mkModel (x ++ [v])%list u z p t w v' y ae ye rl al f
        | Ku => mkModel x (u ++ [v])%list z p t w v' y ae ye rl al f
        | Kz => mkModel x u (z ++ [v])%list p t w v' y ae ye rl al f
        | Kp => mkModel x u z (p ++ [v])%list t w v' y ae ye rl al f
        | Ktvp => mkModel x u z p (t ++ [v])%list w v' y ae ye rl al f
        end
    end.

  Definition names {A} (l : list (string * A)) : list string := map fst l.
  Definition mem_name {A} (n : string) (l : list (string * A)) : bool := existsb (String.eqb n) (names l).

  (** model/_model.py:580-605 set_variable.  In phase BrokenLate the attribute is a structure, so
      [getattr(self, var_type)['name']] raises KeyError. *)
  Definition set_variable (m : model) (var_type name : string) (size : nat) : res model :=
    match ph m with
    | Ready _ => Err ExcAssertion
    | BrokenLate _ => let! _ := kind_of var_type in Err ExcKey
    | _ =>
        let! k := kind_of var_type in
        if mem_name name (vars k m) then Err ExcAssertion
        else Ok (add_var k (name, size) m)
    end.

  (** model/_model.py:641-652 set_expression: after a failed setup [_aux_expression] is a structure and
      has no method append. *)
  Definition set_expression (m : model) (name : string) (e : list E) : res model :=
    match ph m with
    | Ready _ => Err ExcAssertion
    | BrokenEarly | BrokenLate _ => Err ExcAttribute
    | Building =>
        Ok (mkModel (vx m) (vu m) (vz m) (vp m) (vtvp m) (vw m) (vv m) (vy m)
                    (aux_expr m ++ [(name, e)])%list (y_expr m) (rhs_list m) (alg_list m) (ph m))
    end.

  (** [expr += var] with a fresh noise variable of the same length. *)
  Definition add_noise (process : bool) (nname : string) (e : list E) : list E :=
    map (fun ie => plus (snd ie) (noise_sym process nname (fst ie))) (combine (seq 0 (List.length e)) e).

  (** model/_model.py:711-731 set_meas. *)
  Definition set_meas (m : model) (name : string) (e : list E) (noise : bool) : res model :=
    match ph m with
    | Ready _ => Err ExcAssertion
    | BrokenEarly | BrokenLate _ => Err ExcAttribute
    | Building =>
        let nn := name ++ "_noise" in
        let e' := if noise then add_noise false nn e else e in
        let v' := if noise then (vv m ++ [(nn, List.length e)])%list else vv m in
        Ok (mkModel (vx m) (vu m) (vz m) (vp m) (vtvp m) (vw m) v' (vy m ++ [(name, List.length e)])%list
                    (aux_expr m) (y_expr m ++ [(name, e')])%list (rhs_list m) (alg_list m) (ph m))
    end.

  (** model/_model.py:778-793 set_rhs. *)
  Definition set_rhs (m : model) (name : string) (e : list E) (noise : bool) : res model :=
    match ph m with
    | Ready _ => Err ExcAssertion
    | BrokenLate _ => Err ExcKey
    | _ =>
        if mem_name name (vx m) then
          let nn := name ++ "_noise" in
          let e' := if noise then add_noise true nn e else e in
          let w' := if noise then (vw m ++ [(nn, List.length e)])%list else vw m in
          Ok (mkModel (vx m) (vu m) (vz m) (vp m) (vtvp m) w' (vv m) (vy m)
                      (aux_expr m) (y_expr m) (rhs_list m ++ [(name, e')])%list (alg_list m) (ph m))
        else Err ExcAssertion
    end.

  (** model/_model.py:820-824 set_alg. *)
  Definition set_alg (m : model) (name : string) (e : list E) : res model :=
    match ph m with
    | Ready _ => Err ExcAssertion
    | _ => Ok (mkModel (vx m) (vu m) (vz m) (vp m) (vtvp m) (vw m) (vv m) (vy m)
                      (aux_expr m) (y_expr m) (rhs_list m) (alg_list m ++ [(name, e)])%list (ph m))
    end.

  (** model/_model.py:968: [self._rhs[name] = expr]: entries of equal length, or one entry spread
      over the slot; otherwise CasADi raises. *)
  Definition fit (n : nat) (e : list E) : res (list E) :=
    if Nat.eqb (List.length e) n then Ok e
    else match e with [a] => Ok (repeat a n) | _ => Err ExcGeneric end.
  Definition size_of (n : string) (l : list (string * nat)) : nat :=
    match alookup n l with Some k => k | None => 0 end.
  (** model/_model.py:962-969 loop over rhs_list. *)
  Definition rhs_loop (xs : list (string * nat)) (rl : list (string * list E)) : res (list (string * list E)) :=
    foldM (fun acc re => let! e := fit (size_of (fst re) xs) (snd re) in Ok (aset (fst re) e acc)) rl
          (map (fun v => (fst v, repeat zero (snd v))) xs).

  (** The symbols of a state variable, used by the default measurement. *)
  Variable state_sym : string -> nat -> E.

  (** model/_model.py:936-938: state feedback if set_meas was never called. *)
  Definition default_meas (m : model) : res model :=
    match y_expr m with
    | [] => foldM (fun m v => set_meas m (fst v) (map (state_sym (fst v)) (seq 0 (snd v))) true) (vx m) m
    | _ => Ok m
    end.

  Definition total (l : list (string * list E)) : nat := list_sum (map (fun e => List.length (snd e)) l).
  Definition total_n (l : list (string * nat)) : nat := list_sum (map snd l).
  Definition with_phase (f : phase) (m : model) : model :=
    mkModel (vx m) (vu m) (vz m) (vp m) (vtvp m) (vw m) (vv m) (vy m) (aux_expr m) (y_expr m) (rhs_list m) (alg_list m) f.

  (** Setting up again after a failed setup works on structures instead of lists; what CasADi makes of
      that is not modelled and left arbitrary. *)
  Variable resetup : model -> model * res unit.

  (** casadi.Function(inputs, expressions) accepts the expressions (model/_model.py:997-1026): it raises if one
      of them mentions a symbol that is not an input (see SymModel.v, where this function is given). *)
  Variable fun_ok : model -> assembled -> bool.

  (** model/_model.py:921-1042 setup.  (If CasADi refuses one of the structures of lines 944-956 the
      measurement equations are a structure already but the auxiliary expressions may still be a list;
      the model says BrokenEarly for all of these.) *)
  Definition setup (m0 : model) : model * res unit :=
    match ph m0 with
    | BrokenEarly | BrokenLate _ => resetup m0
    | Ready _ => (m0, Err ExcKey)   (* _convert2struct(self._x): self._x['var'] of a structure, line 944 *)
    | Building =>
        match default_meas m0 with
        | Err e => (with_phase BrokenEarly m0, Err e)
        | Ok m =>
            if negb (struct_ok (names (y_expr m))) then (m, Err ExcGeneric)   (* line 941 raises *)
            else if forallb struct_ok [names (vx m); names (vw m); names (vv m); names (vu m);
                                  names (vz m); names (vp m); names (vtvp m); names (aux_expr m); names (vy m);
                                  names (alg_list m)]
            then
              match rhs_loop (vx m) (rhs_list m) with
              | Err e => (with_phase BrokenEarly m, Err e)
              | Ok rhs =>
                  if forallb (fun v => mem_name (fst v) (rhs_list m)) (vx m)
                  then
                    let a := mkAsm rhs (alg_list m) (aux_expr m) (y_expr m) in
                    if negb (fun_ok m a) then (with_phase (BrokenLate None) m, Err ExcGeneric)
                    else if Nat.eqb (total_n (vz m)) (total (alg_list m))
                    then (with_phase (Ready a) m, Ok tt)
                    else (with_phase (BrokenLate (Some a)) m, Err ExcAssertion)
                  else (with_phase BrokenEarly m, Err ExcAssertion)
              end
            else (with_phase BrokenEarly m, Err ExcGeneric)
        end
    end.

  (** Calls of the public API made by a user who catches exceptions (a failing declaring call leaves
      the model unchanged: every check precedes the first change). *)
  Inductive decl :=
  | DVar (var_type name : string) (size : nat)
  | DExpr (name : string) (e : list E)
  | DMeas (name : string) (e : list E) (noise : bool)
  | DRhs (name : string) (e : list E) (noise : bool)
  | DAlg (name : string) (e : list E).

  Definition decl_call (m : model) (d : decl) : res model :=
    match d with
    | DVar t n s => set_variable m t n s
    | DExpr n e => set_expression m n e
    | DMeas n e b => set_meas m n e b
    | DRhs n e b => set_rhs m n e b
    | DAlg n e => set_alg m n e
    end.
  Definition decl_run (m : model) (d : decl) : model :=
    match decl_call m d with Ok m' => m' | Err _ => m end.

  Inductive call := CDecl (d : decl) | CSetup.
  Definition call_run (m : model) (c : call) : model :=
    match c with CDecl d => decl_run m d | CSetup => fst (setup m) end.

  (** simulator.py:156, estimator/_base.py:43, data.py:49, controller/_lqr.py:106,
      controller/_mpc.py:147, model/_linearize.py:70: creating any of these from a model. *)
  Definition construct (m : model) : res unit :=
    match ph m with Ready _ => Ok tt | _ => Err ExcAssertion end.

  (** Access to the model functions [_rhs_fun], [_alg_fun], ... (attributes created by setup, lines
      998-1026). *)
  Definition functions (m : model) : res assembled :=
    match ph m with Ready a => Ok a | BrokenLate (Some a) => Ok a | _ => Err ExcAttribute end.
End Model.
Arguments DVar {E}. Arguments DExpr {E}. Arguments DMeas {E}. Arguments DRhs {E}. Arguments DAlg {E}.
Arguments CDecl {E}. Arguments CSetup {E}.
Arguments Building {E}. Arguments BrokenEarly {E}. Arguments BrokenLate {E}. Arguments Ready {E}.
Arguments mkAsm {E}. Arguments a_rhs {E}. Arguments a_alg {E}. Arguments a_aux {E}. Arguments a_meas {E}.
Arguments mkModel {E}. Arguments vx {E}. Arguments vu {E}. Arguments vz {E}. Arguments vp {E}. Arguments vtvp {E}.
Arguments vw {E}. Arguments vv {E}. Arguments vy {E}. Arguments aux_expr {E}. Arguments y_expr {E}.
Arguments rhs_list {E}. Arguments alg_list {E}. Arguments ph {E}. Arguments vars {E}. Arguments add_var {E}.
Arguments set_variable {E}. Arguments set_expression {E}. Arguments set_alg {E}. Arguments construct {E}. Arguments functions {E}.
Arguments with_phase {E}. Arguments total {E}. Arguments fit {E}.
