(** * What a user expects of the declaration protocol (independent of MdlModel's helpers). *)
From Verif Require Import Base MdlModel.
Local Open Scope string_scope.

(** The documented variable types (docstring of set_variable, model/_model.py:562-570). *)
Definition documented : list (string * kind) :=
  [("states", Kx); ("_x", Kx); ("inputs", Ku); ("_u", Ku); ("algebraic", Kz); ("_z", Kz);
   ("parameter", Kp); ("_p", Kp); ("timevarying_parameter", Ktvp); ("_tvp", Ktvp)].

Definition kind_eqb (a b : kind) : bool :=
  match a, b with Kx, Kx | Ku, Ku | Kz, Kz | Kp, Kp | Ktvp, Ktvp => true | _, _ => false end.
(** [t] is a documented name of kind [k]. *)
Definition names_kind (t : string) (k : kind) : bool :=
  existsb (fun d => String.eqb t (fst d) && kind_eqb k (snd d)) documented.

(** Reserved names per kind. *)
Definition reserved (k : kind) : list string := match k with Kx => [] | _ => ["default"] end.

(** First declaration of each name counts, later ones of the same name are rejected. *)
Fixpoint keep_first (seen : list string) (l : list (string * nat)) : list (string * nat) :=
  match l with
  | [] => []
  | (n, s) :: l' => if existsb (String.eqb n) seen then keep_first seen l' else (n, s) :: keep_first (n :: seen) l'
  end.

Section S.
  Context {E : Type}.
  Notation decl := (decl E).
  (** requested variables of a kind, in order of the calls *)
  Definition requested (k : kind) (h : list decl) : list (string * nat) :=
    flat_map (fun d => match d with DVar t n s => if names_kind t k then [(n, s)] else [] | _ => [] end) h.
  Definition declared (k : kind) (h : list decl) : list (string * nat) := keep_first (reserved k) (requested k h).

  (** set_rhs calls whose state had been declared before the call: (name, expression, noise flag). *)
  Fixpoint rhs_calls (states : list string) (h : list decl) : list (string * list E * bool) :=
    match h with
    | [] => []
    | DVar t n _ :: h' => rhs_calls (if names_kind t Kx then n :: states else states) h'
    | DRhs n e b :: h' => if existsb (String.eqb n) states then (n, e, b) :: rhs_calls states h' else rhs_calls states h'
    | _ :: h' => rhs_calls states h'
    end.
  (** the last of them for state [n] *)
  Definition last_rhs (n : string) (h : list decl) : option (list E * bool) :=
    match filter (fun c => String.eqb n (fst (fst c))) (rev (rhs_calls [] h)) with
    | (_, e, b) :: _ => Some (e, b)
    | [] => None
    end.

  Definition alg_calls (h : list decl) : list (string * list E) :=
    flat_map (fun d => match d with DAlg n e => [(n, e)] | _ => [] end) h.
  Definition expr_calls (h : list decl) : list (string * list E) :=
    flat_map (fun d => match d with DExpr n e => [(n, e)] | _ => [] end) h.
  Definition meas_calls (h : list decl) : list (string * list E * bool) :=
    flat_map (fun d => match d with DMeas n e b => [(n, e, b)] | _ => [] end) h.
End S.
