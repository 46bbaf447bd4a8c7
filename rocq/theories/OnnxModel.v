(** * Model of do_mpc/sysid/_onnxconversion.py: ONNXConversion and ONNXOperations. *)
From Coq Require Import Reals ZArith Ascii.
From Verif Require Import Base.
Set Implicit Arguments.
Local Open Scope string_scope.

(** ** Python dictionaries with string keys *)
Section Dict.
  Variable A : Type.
  Definition dict := list (string * A).
  Fixpoint dget (d : dict) (k : string) : option A :=
    match d with [] => None | (k', v) :: d' => if String.eqb k' k then Some v else dget d' k end.
  (** d[k] = v: keeps the position of an existing key. *)
  Fixpoint dset (d : dict) (k : string) (v : A) : dict :=
    match d with
    | [] => [(k, v)]
    | (k', v') :: d' => if String.eqb k' k then (k', v) :: d' else (k', v') :: dset d' k v
    end.
  Definition dkeys (d : dict) : list string := map fst d.
  Definition dmem (d : dict) (k : string) : bool := existsb (fun e => String.eqb (fst e) k) d.
  (** d.update(e) *)
  Definition dupdate (d e : dict) : dict := fold_left (fun acc x => dset acc (fst x) (snd x)) e d.
  Definition of_list (l : list (string * A)) : dict := dupdate [] l.
End Dict.

(** ** ONNXConversion.  [V]: the values (CasADi matrices or numpy arrays), [At]: the attribute list of a
    node, [shapeof]: the .shape tuple of a value, [ops]: the methods of ONNXOperations by name. *)
Section Conv.
  Variables V At : Type.
  Variable shapeof : V -> list nat.
  Variable ops : string -> option (list V -> At -> res V).

  Record node := mkNode { n_op : string; n_in : list string; n_out : list string; n_attr : At }.
  Record graph := mkGraph { g_init : list (string * V); g_input : list (string * list nat);
                            g_node : list node; g_output : list string }.

  (** A keyword argument: a CasADi value or numpy array, or anything else. *)
  Inductive kwval := KVal (v : V) | KOther.

  Record conv := mkConv { c_nodes : list node; c_init : dict V; c_shape : dict (list nat); c_layers : list string;
                          c_input : option (dict V); c_values : option (dict V) }.

  (** _onnxconversion.py:132 n.output[0] *)
  Definition out0 (n : node) : res string := match n_out n with o :: _ => Ok o | [] => Err ExcIndex end.

  (** _onnxconversion.py:102-136 __init__ (the model is a ModelProto; the name of the model is not
      modelled). *)
  Definition init_conv (g : graph) : res conv :=
    let tensors := of_list (g_init g) in
    let shapes := fold_left (fun acc e => if dmem tensors (fst e) then acc else dset acc (fst e) (snd e)) (g_input g) [] in
    let! outs := mapM out0 (g_node g) in
    Ok (mkConv (g_node g) tensors shapes (map fst (g_input g) ++ outs)%list None None).

  (** _onnxconversion.py:221-231: the shape check of one input; self.input is extended when it passes. *)
  Definition check_input (kw : dict kwval) (inp : dict V) (e : string * list nat) : dict V * res unit :=
    match dget kw (fst e) with
    | Some (KVal v) =>
        match snd e, shapeof v with
        | d :: ds, s :: ss =>
            let check_1 := Nat.eqb (List.length (snd e)) 1 in
            let check_2 := negb (Nat.eqb d s) in
            let check_3 := negb (if list_eq_dec Nat.eq_dec (d :: ds) (s :: ss) then true else false) in
            if (check_1 && check_2 && check_3)%bool then (inp, Err ExcGeneric) else (dset inp (fst e) v, Ok tt)
        | _, _ => (inp, Err ExcIndex)
        end
    | _ => (inp, Err ExcKey)
    end.

  Fixpoint check_inputs (kw : dict kwval) (l : list (string * list nat)) (inp : dict V) : dict V * res unit :=
    match l with
    | [] => (inp, Ok tt)
    | e :: l' => match check_input kw inp e with
                 | (inp', Ok _) => check_inputs kw l' inp'
                 | (inp', Err x) => (inp', Err x)
                 end
    end.

  (** _onnxconversion.py:240-272: one node (all_values, node_values). *)
  Definition do_node (st : dict V * dict V) (n : node) : res (dict V * dict V) :=
    let '(all_values, node_values) := st in
    let! ins := mapM (fun name => match dget all_values name with Some v => Ok v | None => Err ExcKey end) (n_in n) in
    match ops (n_op n) with
    | None => Err ExcGeneric
    | Some f => let! out := f ins (n_attr n) in
                let! o := out0 n in
                Ok (dset all_values o out, dset node_values o out)
    end.

  (** _onnxconversion.py:182-275 convert.  [kw]: the keyword arguments of the call, without the
      parameter 'verbose' of convert itself (see [py_kwargs]). *)
  Definition convert_kw (st : conv) (kw : dict kwval) : conv * res unit :=
    if negb (Nat.eqb (List.length kw) (List.length (c_shape st))) then (st, Err ExcGeneric)
    else if negb (forallb (fun e => dmem kw (fst e)) (c_shape st)) then (st, Err ExcGeneric)
    else if negb (forallb (fun e => match snd e with KVal _ => true | KOther => false end) kw) then (st, Err ExcGeneric)
    else
      match check_inputs kw (c_shape st) [] with
      | (inp, Err x) => (mkConv (c_nodes st) (c_init st) (c_shape st) (c_layers st) (Some inp) (c_values st), Err x)
      | (inp, Ok _) =>
          let st' := mkConv (c_nodes st) (c_init st) (c_shape st) (c_layers st) (Some inp) (c_values st) in
          match foldM do_node (c_nodes st) (dupdate inp (c_init st), inp) with
          | Ok (_, node_values) =>
              (mkConv (c_nodes st) (c_init st) (c_shape st) (c_layers st) (Some inp) (Some node_values), Ok tt)
          | Err x => (st', Err x)
          end
      end.

  (** The call st.convert with keyword arguments [kw] (python semantics of the signature
      convert(self, verbose=False, **kwargs), _onnxconversion.py:182): a keyword 'self' is a TypeError, a
      keyword 'verbose' is not part of kwargs. *)
  Definition py_kwargs (kw : dict kwval) : dict kwval := filter (fun e => negb (String.eqb (fst e) "verbose")) kw.
  Definition convert (st : conv) (kw : dict kwval) : conv * res unit :=
    if dmem kw "self" then (st, Err ExcType) else convert_kw st (py_kwargs kw).

  (** _onnxconversion.py:279-302 __getitem__ *)
  Definition getitem (st : conv) (key : string) : res V :=
    match c_values st with
    | None => Err ExcAttribute
    | Some d => match dget d key with Some v => Ok v | None => Err ExcGeneric end
    end.
End Conv.
Arguments KOther {V}.

(** ** ONNXOperations on matrices *)
Local Open Scope R_scope.

(** A value: a two-dimensional CasADi matrix, or a one-dimensional numpy array (an initializer).
    Entries outside the shape are irrelevant. *)
Record mat := mkMat { m_r : nat; m_c : nat; m_e : nat -> nat -> R }.
Inductive val := M2 (m : mat) | M1 (n : nat) (f : nat -> R).

(** The rule of CasADi for one-dimensional arrays: they are columns. *)
Definition as_mat (v : val) : mat := match v with M2 m => m | M1 n f => mkMat n 1 (fun i _ => f i) end.
Definition vshape (v : val) : list nat := match v with M2 m => [m_r m; m_c m] | M1 n _ => [n] end.

Definition shape_eqb (a b : mat) : bool := (Nat.eqb (m_r a) (m_r b) && Nat.eqb (m_c a) (m_c b))%bool.
Definition is_scalar (a : mat) : bool := (Nat.eqb (m_r a) 1 && Nat.eqb (m_c a) 1)%bool.

(** Elementwise functions of CasADi. *)
Definition mmap (f : R -> R) (a : mat) : mat := mkMat (m_r a) (m_c a) (fun i j => f (m_e a i j)).

(** Binary elementwise operations of CasADi (matrix_impl.hpp, matrix_matrix): 1x1 operands are spread,
    equal shapes, and horizontal multiples are repeated; anything else is an error.  Empty operands are
    only combined with equal shapes or scalars (simplification). *)
Definition binop (f : R -> R -> R) (a b : mat) : res mat :=
  if is_scalar a then Ok (mkMat (m_r b) (m_c b) (fun i j => f (m_e a 0%nat 0%nat) (m_e b i j)))
  else if is_scalar b then Ok (mkMat (m_r a) (m_c a) (fun i j => f (m_e a i j) (m_e b 0%nat 0%nat)))
  else if shape_eqb a b then Ok (mkMat (m_r a) (m_c a) (fun i j => f (m_e a i j) (m_e b i j)))
  else if (Nat.eqb (m_r a) 0 || Nat.eqb (m_c a) 0 || Nat.eqb (m_r b) 0 || Nat.eqb (m_c b) 0)%bool then Err ExcGeneric
  else if (Nat.eqb (m_r a) (m_r b) && Nat.eqb (Nat.modulo (m_c a) (m_c b)) 0)%bool
       then Ok (mkMat (m_r a) (m_c a) (fun i j => f (m_e a i j) (m_e b i (Nat.modulo j (m_c b)))))
  else if (Nat.eqb (m_r a) (m_r b) && Nat.eqb (Nat.modulo (m_c b) (m_c a)) 0)%bool
       then Ok (mkMat (m_r b) (m_c b) (fun i j => f (m_e a i (Nat.modulo j (m_c a))) (m_e b i j)))
  else Err ExcGeneric.

Fixpoint rsum (n : nat) (f : nat -> R) : R := match n with O => 0 | S k => rsum k f + f k end.

(** casadi.mtimes: elementwise when an operand is 1x1, the matrix product otherwise. *)
Definition mtimes (a b : mat) : res mat :=
  if (is_scalar a || is_scalar b)%bool then binop Rmult a b
  else if Nat.eqb (m_c a) (m_r b)
       then Ok (mkMat (m_r a) (m_c b) (fun i j => rsum (m_c a) (fun k => m_e a i k * m_e b k j)))
       else Err ExcGeneric.

Definition mtrans (a : mat) : mat := mkMat (m_c a) (m_r a) (fun i j => m_e a j i).
Definition mscale (c : R) (a : mat) : mat := mmap (Rmult c) a.

(** Attributes of a node: name, and either an integer, a float, or a list of integers. *)
Inductive attr := AInt (z : Z) | AFlt (r : R) | AInts (l : list Z).
Definition attrs := list (string * attr).

(** _onnxconversion.py:318-319 *)
Definition op_Tanh (x : mat) : mat := mmap tanh x.
(** _onnxconversion.py:321-323 *)
Definition op_Sigmoid (x : mat) : mat := mmap (fun t => 1 / (1 + exp (- t))) x.
(** _onnxconversion.py:325-326 *)
Definition op_Relu (x : mat) : mat := mmap (fun t => Rmax 0 t) x.
(** _onnxconversion.py:328-329; the attribute is ignored *)
Definition op_Elu (x : mat) (a : attrs) : mat := mmap (fun t => Rmax 0 t + Rmin 0 (exp t - 1)) x.

(** _onnxconversion.py:334-341: out = 0; out += arg for every argument.  The empty sum is the number 0,
    which is returned as a 1x1 matrix. *)
Definition op_Add (args : list mat) : res mat :=
  foldM (fun out arg => binop Rplus out arg) args (mkMat 1 1 (fun _ _ => 0)).

(** _onnxconversion.py:331-332: casadi.mtimes with other than two arguments is an error. *)
Definition op_MatMul (args : list mat) : res mat := match args with [a; b] => mtimes a b | _ => Err ExcType end.
(** _onnxconversion.py:343-344 and 346-347: further arguments are ignored *)
Definition op_Mul (args : list mat) : res mat := match args with a :: b :: _ => binop Rmult a b | _ => Err ExcIndex end.
Definition op_Sub (args : list mat) : res mat := match args with a :: b :: _ => binop Rminus a b | _ => Err ExcIndex end.

Definition attr_num (a : attr) : R := match a with AInt z => IZR z | AFlt r => r | AInts _ => 0 end.
Definition is_one (o : option attr) : bool :=
  match o with Some (AInt z) => Z.eqb z 1 | Some (AFlt r) => if Req_EM_T r 1 then true else false | _ => false end.

(** _onnxconversion.py:376-377: C.ndim == 1 -> reshape to one row *)
Definition row_of (v : val) : mat := match v with M2 m => m | M1 n f => mkMat 1 n (fun _ j => f j) end.

(** _onnxconversion.py:349-381 Gemm *)
Definition op_Gemm (args : list val) (a : attrs) : res mat :=
  let d := of_list a in
  match args with
  | vA :: vB :: vC :: _ =>
      let A := if is_one (dget d "transA") then mtrans (as_mat vA) else as_mat vA in
      let B := if is_one (dget d "transB") then mtrans (as_mat vB) else as_mat vB in
      let alpha := match dget d "alpha" with Some x => attr_num x | None => 1 end in
      let beta := match dget d "beta" with Some x => attr_num x | None => 1 end in
      let! AB := mtimes A B in
      binop Rplus (mscale alpha AB) (mscale beta (row_of vC))
  | _ => Err ExcIndex
  end.

(** casadi.vertcat and casadi.horzcat of non-empty matrices (an argument of wrong size is an error;
    CasADi's special treatment of empty arguments is not modelled). *)
Definition vert2 (a b : mat) : res mat :=
  if Nat.eqb (m_c a) (m_c b)
  then Ok (mkMat (m_r a + m_r b) (m_c a) (fun i j => if Nat.ltb i (m_r a) then m_e a i j else m_e b (i - m_r a)%nat j))
  else Err ExcGeneric.
Definition horz2 (a b : mat) : res mat :=
  if Nat.eqb (m_r a) (m_r b)
  then Ok (mkMat (m_r a) (m_c a + m_c b) (fun i j => if Nat.ltb j (m_c a) then m_e a i j else m_e b i (j - m_c a)%nat))
  else Err ExcGeneric.
Definition cat (f : mat -> mat -> res mat) (args : list mat) : res mat :=
  match args with [] => Ok (mkMat 0 0 (fun _ _ => 0)) | a :: r => foldM f r a end.

(** _onnxconversion.py:385-389 Concat *)
Definition op_Concat (args : list mat) (a : attrs) : res mat :=
  match a with
  | [] => Err ExcIndex
  | (_, x) :: _ =>
      let i := match x with AInt z => z | _ => 0%Z end in
      if (Z.eqb i 0 || Z.eqb i 2)%bool then cat vert2 args else cat horz2 args
  end.

(** _onnxconversion.py:391-397 Unsqueeze, Squeeze *)
Definition op_first (args : list val) : res val := match args with v :: _ => Ok v | [] => Err ExcIndex end.

(** A python slice start:end of an axis of length n. *)
Definition clampz (n : nat) (z : Z) : nat :=
  let z' := if (z <? 0)%Z then (z + Z.of_nat n)%Z else z in
  if (z' <? 0)%Z then 0%nat else Nat.min (Z.to_nat z') n.

(** slices[ax_k] = slice(start_k, end_k) on the two-element list [slices] (None: slice(None,None)). *)
Definition set_slice (sl : option (Z * Z) * option (Z * Z)) (ax : Z) (v : Z * Z) : res (option (Z * Z) * option (Z * Z)) :=
  if (Z.eqb ax 0 || Z.eqb ax (-2))%bool then Ok (Some v, snd sl)
  else if (Z.eqb ax 1 || Z.eqb ax (-1))%bool then Ok (fst sl, Some v)
  else Err ExcIndex.

Definition take_slice (n : nat) (s : option (Z * Z)) : nat * nat :=   (* first index, length *)
  match s with
  | None => (0%nat, n)
  | Some (a, b) => let a' := clampz n a in let b' := clampz n b in (a', (b' - a')%nat)
  end.

Definition ints_of (x : attr) : list Z := match x with AInts l => l | _ => [] end.

(** _onnxconversion.py:399-410 Slice: the attributes are taken by position (axes, ends, starts). *)
Definition op_Slice (args : list mat) (a : attrs) : res mat :=
  match a with
  | (_, ax) :: (_, ends) :: (_, starts) :: _ =>
      let! sl := foldM (fun sl e => set_slice sl (fst e) (snd e))
                   (combine (ints_of ax) (combine (ints_of starts) (ints_of ends))) (None, None) in
      match args with
      | m :: _ => let '(r0, nr) := take_slice (m_r m) (fst sl) in
                  let '(c0, nc) := take_slice (m_c m) (snd sl) in
                  Ok (mkMat nr nc (fun i j => m_e m (r0 + i)%nat (c0 + j)%nat))
      | [] => Err ExcIndex
      end
  | _ => Err ExcIndex
  end.

(** _onnxconversion.py:412-416 Reshape of a CasADi matrix to a two-dimensional shape (r, c): CasADi keeps
    the column-major order.  Shapes with -1 are not modelled. *)
Definition op_Reshape (m : mat) (r c : nat) : res mat :=
  if Nat.eqb (m_r m * m_c m) (r * c)
  then Ok (mkMat r c (fun i j => let k := (j * r + i)%nat in m_e m (Nat.modulo k (m_r m)) (Nat.div k (m_r m))))
  else Err ExcGeneric.

(** The table of methods: ONNXOperations by name (_onnxconversion.py:305-419).  Shape (which returns a
    python tuple) and Reshape (whose second argument is a shape) are left out of the table. *)
Definition lift1 (f : mat -> attrs -> mat) : list val -> attrs -> res val :=
  fun args a => match args with [v] => Ok (M2 (f (as_mat v) a)) | _ => Err ExcType end.
Definition liftn (f : list mat -> attrs -> res mat) : list val -> attrs -> res val :=
  fun args a => let! m := f (map as_mat args) a in Ok (M2 m).

Definition onnx_ops (name : string) : option (list val -> attrs -> res val) :=
  if String.eqb name "Tanh" then Some (lift1 (fun x _ => op_Tanh x))
  else if String.eqb name "Sigmoid" then Some (lift1 (fun x _ => op_Sigmoid x))
  else if String.eqb name "Relu" then Some (lift1 (fun x _ => op_Relu x))
  else if String.eqb name "Elu" then Some (lift1 op_Elu)
  else if String.eqb name "MatMul" then Some (liftn (fun l _ => op_MatMul l))
  else if String.eqb name "Add" then Some (liftn (fun l _ => op_Add l))
  else if String.eqb name "Mul" then Some (liftn (fun l _ => op_Mul l))
  else if String.eqb name "Sub" then Some (liftn (fun l _ => op_Sub l))
  else if String.eqb name "Gemm" then Some (fun l a => let! m := op_Gemm l a in Ok (M2 m))
  else if String.eqb name "Sum" then Some (liftn (fun l _ => op_Add l))
  else if String.eqb name "Concat" then Some (liftn op_Concat)
  else if String.eqb name "Unsqueeze" then Some (fun l _ => op_first l)
  else if String.eqb name "Squeeze" then Some (fun l _ => op_first l)
  else if String.eqb name "Slice" then Some (liftn op_Slice)
  else None.
