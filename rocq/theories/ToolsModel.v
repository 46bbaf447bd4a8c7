(** * Model of do_mpc/tools/_timer.py, do_mpc/tools/_indexedproperty.py and of how settings objects
    are attached to simulators, controllers and estimators. *)
From Verif Require Import Base.
From Coq Require Import QArith Qround.
Local Open Scope string_scope.

(** ** Timer *)

(** tools/_timer.py:12-21 __init__: the factor of a unit; any other unit raises. *)
Definition unit_factor (unit : string) : res Q :=
  if String.eqb unit "ms" then Ok (1000 # 1)
  else if String.eqb unit "s" then Ok (1 # 1)
  else if String.eqb unit "min" then Ok (1 # 60)
  else if String.eqb unit "h" then Ok (1 # 3600)
  else Err ExcGeneric.

(** tools/_timer.py:23-24: the state.  Clock readings (time.time(), seconds) are rational numbers;
    the rounding of float subtraction is not modelled. *)
Record timer := mkTimer { t_start : option Q; t_list : list Q; t_factor : Q }.

(** tools/_timer.py:8-24 __init__. *)
Definition timer_init (unit : string) : res timer :=
  let! f := unit_factor unit in Ok (mkTimer None [] f).

(** tools/_timer.py:26-27 tic; [now] is what time.time() returns. *)
Definition tic (now : Q) (t : timer) : timer := mkTimer (Some now) (t_list t) (t_factor t).

(** python truth value of t_start: None and 0.0 are false. *)
Definition truthy (o : option Q) : bool :=
  match o with Some q => negb (Qeq_bool q 0) | None => false end.

(** tools/_timer.py:29-35 toc.  The assertion is evaluated before the clock is read. *)
Definition toc (now : Q) (t : timer) : res timer :=
  if truthy (t_start t)
  then match t_start t with
       | Some s => Ok (mkTimer None (t_list t ++ [now - s])%list (t_factor t))
       | None => Err ExcAssertion
       end
  else Err ExcAssertion.

(** One call made by a user who catches exceptions; the number is the clock reading. *)
Inductive tcall := Tic (now : Q) | Toc (now : Q).
Definition tcall_run (t : timer) (c : tcall) : timer :=
  match c with
  | Tic q => tic q t
  | Toc q => match toc q t with Ok t' => t' | Err _ => t end
  end.

(** np.round (half to even) of a rational. *)
Definition round_half_even (q : Q) : Z :=
  let f := Qfloor q in
  let r := (q - inject_Z f)%Q in
  if Qle_bool (1 # 2) r
  then if Qeq_bool r (1 # 2) then (if Z.even f then f else f + 1)%Z else (f + 1)%Z
  else f.

(** tools/_timer.py:37-42 info: the rounded durations and their mean, minimum and maximum.
    np.min of an empty array raises ValueError (np.mean only warns).  The standard deviation and the
    printed text are not modelled. *)
Definition zmin_list (a : Z) (l : list Z) : Z := fold_left Z.min l a.
Definition zmax_list (a : Z) (l : list Z) : Z := fold_left Z.max l a.
Definition zsum (l : list Z) : Z := fold_right Z.add 0%Z l.
Definition timer_info (t : timer) : res (Q * Z * Z) :=
  match map (fun d => round_half_even (d * t_factor t)) (t_list t) with
  | [] => Err ExcValue
  | a :: l => Ok ((inject_Z (zsum (a :: l)) / inject_Z (Z.of_nat (List.length (a :: l))))%Q,
                  zmin_list a l, zmax_list a l)
  end.

(** ** IndexedProperty *)

(** Objects are numbered.  The instance data reached by the property functions fget/fset of one
    object: property name -> key -> value (keys and values are both numbers here, so that a value
    read from one property can be used as a key of another). *)
Definition heap := nat -> string -> Z -> Z.
Definition heap_set (h : heap) (o : nat) (p : string) (k v : Z) : heap :=
  fun o' p' k' => if Nat.eqb o o' && String.eqb p p' && Z.eqb k k' then v else h o' p' k'.

(** tools/_indexedproperty.py:24-26: the descriptor object of a property (created once per class, so
    shared by all instances of Optimizer, i.e. by all MPC and MHE objects) remembers the object it was
    last read from.  One descriptor per property name. *)
Record pystate := mkPy {
  py_heap : heap;
  py_desc : string -> nat;             (* descriptor.obj per property *)
  py_var : string -> option string }.  (* user's variables holding a descriptor (h = obj.bounds) *)

Definition upd_desc (s : pystate) (p : string) (o : nat) : pystate :=
  mkPy (py_heap s) (fun q => if String.eqb p q then o else py_desc s q) (py_var s).

(** Expressions of user code: a constant, [obj.prop[key]], or [h[key]] where h is a variable holding
    what [obj.prop] returned. *)
Inductive pexpr :=
| EC (v : Z)
| EProp (o : nat) (p : string) (key : pexpr)
| EVar (h : string) (key : pexpr).

(** tools/_indexedproperty.py:24-29: [obj.prop] runs __get__ (stores obj), then the key expression is
    evaluated, then __getitem__ uses the descriptor's current obj. *)
Fixpoint eval (s : pystate) (e : pexpr) : res (pystate * Z) :=
  match e with
  | EC v => Ok (s, v)
  | EProp o p key =>
      let s1 := upd_desc s p o in
      let! (s2, k) := eval s1 key in
      Ok (s2, py_heap s2 (py_desc s2 p) p k)
  | EVar h key =>
      match py_var s h with
      | None => Err ExcName
      | Some p => let! (s2, k) := eval s key in Ok (s2, py_heap s2 (py_desc s2 p) p k)
      end
  end.

(** Statements: [obj.prop[key] = val], [h = obj.prop], [h[key] = val]. *)
Inductive pstmt :=
| SSet (o : nat) (p : string) (key val : pexpr)
| SBind (h : string) (o : nat) (p : string)
| SVarSet (h : string) (key val : pexpr).

(** tools/_indexedproperty.py:24-32: python evaluates the right-hand side first, then [obj.prop], then
    the key, then calls __setitem__. *)
Definition exec (s : pystate) (c : pstmt) : res pystate :=
  match c with
  | SSet o p key val =>
      let! (s1, v) := eval s val in
      let s2 := upd_desc s1 p o in
      let! (s3, k) := eval s2 key in
      Ok (mkPy (heap_set (py_heap s3) (py_desc s3 p) p k v) (py_desc s3) (py_var s3))
  | SBind h o p =>
      let s1 := upd_desc s p o in
      Ok (mkPy (py_heap s1) (py_desc s1) (fun x => if String.eqb h x then Some p else py_var s1 x))
  | SVarSet h key val =>
      let! (s1, v) := eval s val in
      match py_var s1 h with
      | None => Err ExcName
      | Some p =>
          let! (s2, k) := eval s1 key in
          Ok (mkPy (heap_set (py_heap s2) (py_desc s2 p) p k v) (py_desc s2) (py_var s2))
      end
  end.

(** ** Settings objects *)

(** A settings object: the dictionary attribute ([nlpsol_opts] of MPC/MHE, [integration_opts] of a
    continuous simulator) is a reference into a store of dictionaries; the scalar attributes (t_step,
    abstol, ...) are read from the instance if assigned there, else from the class default. *)
Record sobj := mkSObj { so_scalars : list (string * Z); so_dict : nat }.
Record sworld := mkSW { sw_dicts : list (list (string * Z)); sw_objs : list sobj }.

(** Class defaults exist from import on: dictionary 0 is the class attribute
    [ContinousSimulatorSettings.integration_opts] (simulator.py:99). *)
Definition sw_init : sworld := mkSW [[]] [].

Fixpoint slookup (k : string) (l : list (string * Z)) : option Z :=
  match l with [] => None | (k', v) :: l' => if String.eqb k k' then Some v else slookup k l' end.
Fixpoint set_nth {A} (n : nat) (a : A) (l : list A) : list A :=
  match l, n with
  | [], _ => []
  | _ :: l', O => a :: l'
  | b :: l', S n' => b :: set_nth n' a l'
  end.

Inductive scall :=
| NewOptimizer                                   (* controller/_controllersettings.py:64,138; estimator/_estimatorsettings.py:49,113: dataclass with default_factory=dict *)
| NewContSimulator                               (* simulator.py:64-99: no @dataclass, class-level dictionary *)
| SetScalar (o : nat) (k : string) (v : Z)       (* obj.settings.k = v, or set_param(k=v) *)
| DictItem (o : nat) (k : string) (v : Z)        (* obj.settings.<dict>[k] = v, also supress_ipopt_output / set_linear_solver *)
| DictAssign (o : nat) (d : list (string * Z)).  (* obj.settings.<dict> = {...} (a new dictionary) *)

Definition sw_run (w : sworld) (c : scall) : sworld :=
  match c with
  | NewOptimizer => mkSW (sw_dicts w ++ [[]])%list (sw_objs w ++ [mkSObj [] (List.length (sw_dicts w))])%list
  | NewContSimulator => mkSW (sw_dicts w) (sw_objs w ++ [mkSObj [] 0])%list
  | SetScalar o k v =>
      match nth_error (sw_objs w) o with
      | Some so => mkSW (sw_dicts w) (set_nth o (mkSObj ((k, v) :: so_scalars so) (so_dict so)) (sw_objs w))
      | None => w
      end
  | DictItem o k v =>
      match nth_error (sw_objs w) o with
      | Some so => mkSW (set_nth (so_dict so) ((k, v) :: nth (so_dict so) (sw_dicts w) []) (sw_dicts w)) (sw_objs w)
      | None => w
      end
  | DictAssign o d =>
      match nth_error (sw_objs w) o with
      | Some so => mkSW (sw_dicts w ++ [d])%list (set_nth o (mkSObj (so_scalars so) (List.length (sw_dicts w))) (sw_objs w))
      | None => w
      end
  end.

(** What a user reads: scalar attribute (None: class default) and dictionary item. *)
Definition read_scalar (w : sworld) (o : nat) (k : string) : option (option Z) :=
  option_map (fun so => slookup k (so_scalars so)) (nth_error (sw_objs w) o).
Definition read_item (w : sworld) (o : nat) (k : string) : option (option Z) :=
  option_map (fun so => slookup k (nth (so_dict so) (sw_dicts w) [])) (nth_error (sw_objs w) o).
