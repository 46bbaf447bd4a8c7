(** * Specification for Data: what a history of calls records. *)
From Verif Require Import Base DataModel.

Section Spec.
  Context {T ix : Type}.
  Variable ix_eqb : list ix -> list ix -> bool.
  Variable f_of : string -> list ix -> res (list nat).

  (** The calls: update(key=value, ...), init_storage() (what reset_history does), adding fields
      (controller/estimator setup), and a query. *)
  Inductive dop :=
  | DUpdate (kvs : list (string * list T))
  | DReset
  | DAddFields (extra : list (string * nat))
  | DQuery (field : string) (ind : list ix).

  Definition dstep (d : data T ix) (o : dop) : data T ix :=
    match o with
    | DUpdate kvs => fst (update d kvs)
    | DReset => init_storage d
    | DAddFields extra => add_fields extra d
    | DQuery f ind => fst (getitem ix_eqb f_of d f ind)
    end.
  Definition drun (d : data T ix) (h : list dop) : data T ix := fold_left dstep h d.

  (** The rows of a field (what [data[field]] shows). *)
  Definition stored (d : data T ix) (f : string) : list (list T) :=
    match alookup f (darrays d) with Some r => r | None => [] end.

  (** A keyword is valid if the field exists and the value has the field's dimension. *)
  Definition valid_kv (fields : list (string * nat)) (kv : string * list T) : bool :=
    match alookup (fst kv) fields with Some dim => Nat.eqb (List.length (snd kv)) dim | None => false end.
  (** The keywords recorded by an update: those before the first invalid one. *)
  Fixpoint accepted (fields : list (string * nat)) (kvs : list (string * list T)) : list (string * list T) :=
    match kvs with
    | [] => []
    | kv :: kvs' => if valid_kv fields kv then kv :: accepted fields kvs' else []
    end.
  (** What the caller sees: success, AssertionError for an unknown field, ValueError for a wrong size. *)
  Fixpoint verdict (fields : list (string * nat)) (kvs : list (string * list T)) : res unit :=
    match kvs with
    | [] => Ok tt
    | kv :: kvs' => if valid_kv fields kv then verdict fields kvs'
                    else match alookup (fst kv) fields with None => Err ExcAssertion | Some _ => Err ExcValue end
    end.
  Definition rows_of (f : string) (kvs : list (string * list T)) : list (list T) :=
    map snd (filter (fun kv => String.eqb f (fst kv)) kvs).

  Definition fields_after (fields : list (string * nat)) (h : list dop) : list (string * nat) :=
    fold_left (fun fs o => match o with
                           | DAddFields extra => fold_left (fun a fd => aset (fst fd) (snd fd) a) extra fs
                           | _ => fs
                           end) h fields.

  (** The values recorded for field [f] since the last reset (starting from [acc]). *)
  Fixpoint recorded (fields : list (string * nat)) (acc : list (list T)) (h : list dop) (f : string) : list (list T) :=
    match h with
    | [] => acc
    | o :: h' =>
        recorded (fields_after fields [o])
          match o with
          | DUpdate kvs => (acc ++ rows_of f (accepted fields kvs))%list
          | DReset | DAddFields _ => []
          | DQuery _ _ => acc
          end h' f
    end.
End Spec.
Arguments dop : clear implicits.

(** The history of an MPCData object: calls on the Data part and prediction queries. *)
Inductive mop (T ix : Type) :=
| MData (o : dop T ix)
| MPredict (head : string) (rest : list ix) (t : Z).
Arguments MData {T ix}. Arguments MPredict {T ix}.

(** Where the trajectory of each kind of quantity is recorded: states, algebraic variables and inputs are
    decision variables; time-varying parameters are parameters of the problem; auxiliary expressions have
    their own field. *)
Definition trajectory_field : list (string * string) :=
  [("_x", "_opt_x_num"); ("_z", "_opt_x_num"); ("_u", "_opt_x_num"); ("_tvp", "opt_p_num"); ("_aux", "_opt_aux_num")]%string.

Section PSpec.
  Context {T ix : Type}.
  Variable zero : T.
  Variable ix_eqb : list ix -> list ix -> bool.
  Variable f_of pos_of : string -> list ix -> res (list nat).
  Definition mstep (sf : bool) (m : mdata T ix) (o : mop T ix) : mdata T ix :=
    match o with
    | MData o => mkMData (dstep ix_eqb f_of (mdat m) o) (mqueries m)
    | MPredict h r t => fst (prediction zero ix_eqb pos_of sf m h r t)
    end.
  Definition mrun (sf : bool) (m : mdata T ix) (h : list (mop T ix)) : mdata T ix := fold_left (mstep sf) h m.
  (** The calls on the Data part only. *)
  Definition data_calls (h : list (mop T ix)) : list (dop T ix) :=
    flat_map (fun o => match o with MData o => [o] | MPredict _ _ _ => [] end) h.
End PSpec.

(** Last element of a list accepted by a selector. *)
Fixpoint last_of {A B} (f : A -> option B) (l : list A) : option B :=
  match l with
  | [] => None
  | x :: l' => match last_of f l' with Some b => Some b | None => f x end
  end.
