(** * Vocabulary for the ONNX properties (C55, C74): the meaning of a graph and of the operations,
    independent of the conversion loop. *)
From Coq Require Import Reals ZArith.
From Verif Require Import Base OnnxModel.
Set Implicit Arguments.
Local Open Scope string_scope.

Section Sem.
  Variables V At : Type.
  Variable shapeof : V -> list nat.
  Variable ops : string -> option (list V -> At -> res V).

  (** The inputs the caller has to provide: graph inputs that are not initialized. *)
  Definition free_input (g : graph V At) (k : string) : Prop :=
    In k (map fst (g_input g)) /\ ~ In k (map fst (g_init g)).

  Definition node_outputs (l : list (node At)) : list string := flat_map (fun n => firstn 1 (n_out n)) l.

  (** [rho] solves the equations of the graph for the given inputs: initializers and inputs have their
      values, and the (first) output of every node is its operation applied to the values of its
      inputs. *)
  Definition solves (g : graph V At) (given : string -> option V) (rho : string -> option V) : Prop :=
    (forall k v, In (k, v) (g_init g) -> rho k = Some v)
    /\ (forall k, free_input g k -> rho k = given k /\ given k <> None)
    /\ (forall n, In n (g_node g) -> exists f vs v o rest,
          ops (n_op n) = Some f /\ Forall2 (fun k x => rho k = Some x) (n_in n) vs
          /\ f vs (n_attr n) = Ok v /\ n_out n = o :: rest /\ rho o = Some v).

  (** The requirements of the ONNX format: every name is defined once, every node has an output, and nodes
      are listed after the nodes whose outputs they use. *)
  Definition well_formed (g : graph V At) : Prop :=
    NoDup (map fst (g_init g)) /\ NoDup (map fst (g_input g))
    /\ NoDup (node_outputs (g_node g))
    /\ (forall n, In n (g_node g) -> n_out n <> [])
    /\ (forall o, In o (node_outputs (g_node g)) -> ~ In o (map fst (g_init g)) /\ ~ In o (map fst (g_input g)))
    /\ (forall pre n post, g_node g = (pre ++ n :: post)%list -> forall k, In k (n_in n) ->
          In k (map fst (g_init g)) \/ In k (map fst (g_input g)) \/ In k (node_outputs pre)).

  (** Converters: created from the graph, then any number of conversions (failed or not). *)
  Inductive converter (g : graph V At) : conv V At -> Prop :=
  | conv_new st : init_conv g = Ok st -> converter g st
  | conv_more st kw : converter g st -> converter g (fst (convert shapeof ops st kw)).

  (** Keyword arguments of a python call have distinct names. *)
  Definition kwargs_ok (kw : dict (kwval V)) : Prop := NoDup (map fst kw).

  Definition kwvalue (kw : dict (kwval V)) (k : string) : option V :=
    match dget kw k with Some (KVal v) => Some v | _ => None end.

  (** Exactly the free inputs are given, as CasADi values or arrays that have at least one dimension. *)
  Definition gives_inputs (g : graph V At) (kw : dict (kwval V)) : Prop :=
    kwargs_ok kw /\ (forall k, In k (map fst kw) <-> free_input g k)
    /\ (forall k v, In (k, v) kw -> exists x, v = KVal x /\ shapeof x <> []).

  (** The declared shapes have at least one dimension; a one-dimensional declaration agrees with the first
      dimension of the value. *)
  Definition shapes_pass (g : graph V At) (given : string -> option V) : Prop :=
    forall k sh, In (k, sh) (g_input g) -> free_input g k ->
      exists d ds, sh = d :: ds /\ forall v s ss, given k = Some v -> shapeof v = s :: ss -> ds = [] -> s = d.
End Sem.

(** ** The operations of the ONNX standard on matrices *)
Local Open Scope R_scope.

(** Numpy-style broadcasting of two matrices, as in the ONNX standard. *)
Definition bdim (a b : nat) : option nat :=
  if Nat.eqb a b then Some a else if Nat.eqb a 1 then Some b else if Nat.eqb b 1 then Some a else None.
Definition bidx (n i : nat) : nat := if Nat.eqb n 1 then 0%nat else i.

(** [out] is [f] applied elementwise to the broadcast operands. *)
Definition is_broadcast (f : R -> R -> R) (a b out : mat) : Prop :=
  bdim (m_r a) (m_r b) = Some (m_r out) /\ bdim (m_c a) (m_c b) = Some (m_c out)
  /\ forall i j, (i < m_r out)%nat -> (j < m_c out)%nat ->
       m_e out i j = f (m_e a (bidx (m_r a) i) (bidx (m_c a) j)) (m_e b (bidx (m_r b) i) (bidx (m_c b) j)).

Definition broadcastable (a b : mat) : Prop := bdim (m_r a) (m_r b) <> None /\ bdim (m_c a) (m_c b) <> None.

Definition same_mat (a b : mat) : Prop :=
  m_r a = m_r b /\ m_c a = m_c b /\ forall i j, (i < m_r a)%nat -> (j < m_c a)%nat -> m_e a i j = m_e b i j.

(** [out] = a b. *)
Definition is_product (a b out : mat) : Prop :=
  m_r out = m_r a /\ m_c out = m_c b
  /\ forall i j, (i < m_r a)%nat -> (j < m_c b)%nat -> m_e out i j = rsum (m_c a) (fun k => m_e a i k * m_e b k j).
