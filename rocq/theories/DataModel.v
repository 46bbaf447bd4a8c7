(** * Model of do_mpc/data.py: class Data, MPCData.prediction's cache, save_results/load_results. *)
From Verif Require Import Base.
From Coq Require Import DecimalString Decimal Ascii.
Local Open Scope string_scope.

(** ** Association lists keyed by strings (python dict / attribute dictionary). *)
Fixpoint alookup {A} (k : string) (l : list (string * A)) : option A :=
  match l with
  | [] => None
  | (k', a) :: l' => if String.eqb k k' then Some a else alookup k l'
  end.
(** dict assignment: overwrite in place or append. *)
Fixpoint aset {A} (k : string) (a : A) (l : list (string * A)) : list (string * A) :=
  match l with
  | [] => [(k, a)]
  | (k', b) :: l' => if String.eqb k k' then (k', a) :: l' else (k', b) :: aset k a l'
  end.
Definition amem {A} (k : string) (l : list (string * A)) : bool :=
  match alookup k l with Some _ => true | None => false end.

Section Data.
  Variable T : Type.        (* numbers *)
  Variable ix : Type.       (* one further power index component (name, int, slice) *)
  Variable ix_eqb : list ix -> list ix -> bool.
  (** [self.model[field].f[powerind]]: positions of a power index in the field's vector (CasADi
      structure of the model, fixed once the model is set up); may raise. *)
  Variable f_of : string -> list ix -> res (list nat).

  (** data.py:48-79: the data_fields dictionary, the array attributes (lists of rows) and the cache
      of queries [result_queries]. *)
  Record data := mkData {
    dfields : list (string * nat);
    darrays : list (string * list (list T));
    dcache : list (string * list ix * list nat) }.

  (** data.py:158-165 init_storage. *)
  Definition init_storage (d : data) : data :=
    mkData (dfields d) (fold_left (fun a fd => aset (fst fd) [] a) (dfields d) (darrays d)) (dcache d).

  (** data.py:48-79 __init__ with the eight model fields. *)
  Definition data_init (n_x n_y n_u n_z n_tvp n_p n_aux : nat) : data :=
    init_storage (mkData [("_time", 1); ("_x", n_x); ("_y", n_y); ("_u", n_u); ("_z", n_z);
                          ("_tvp", n_tvp); ("_p", n_p); ("_aux", n_aux)] [] []).

  (** optimizer.py:447-481 (_setup_..._data): data_fields.update({...}); init_storage(). *)
  Definition add_fields (extra : list (string * nat)) (d : data) : data :=
    init_storage (mkData (fold_left (fun a fd => aset (fst fd) (snd fd) a) extra (dfields d)) (darrays d) (dcache d)).

  (** data.py:204-218, body of the loop of update for one keyword: the value is the list of its
      entries (after [.cat]/[.full()]/[reshape(1,-1)]); np.append raises ValueError if the row's
      length differs from the array's width, which init_storage set to the field's dimension. *)
  Definition update_one (d : data) (key : string) (row : list T) : res data :=
    match alookup key (dfields d) with
    | None => Err ExcAssertion
    | Some dim =>
        match alookup key (darrays d) with
        | None => Err ExcAttribute
        | Some rows =>
            if Nat.eqb (List.length row) dim
            then Ok (mkData (dfields d) (aset key (rows ++ [row])%list (darrays d)) (dcache d))
            else Err ExcValue
        end
    end.

  (** data.py:172-218 update: keywords processed in order; those before a failing one stay applied. *)
  Fixpoint update (d : data) (kvs : list (string * list T)) : data * res unit :=
    match kvs with
    | [] => (d, Ok tt)
    | (k, v) :: kvs' => match update_one d k v with
                        | Ok d' => update d' kvs'
                        | Err e => (d, Err e)
                        end
    end.

  (** first matching entry of the cache (data.py:143-145). *)
  Fixpoint cache_find (field : string) (ind : list ix) (c : list (string * list ix * list nat)) : option (list nat) :=
    match c with
    | [] => None
    | (f, i, r) :: c' => if String.eqb field f && ix_eqb ind i then Some r else cache_find field ind c'
    end.

  (** numpy [arr[:, f_ind]]; IndexError if a position exceeds the width. *)
  Definition columns (rows : list (list T)) (f_ind : list nat) : res (list (list T)) :=
    mapM (fun row => mapM (fun i => match nth_error row i with Some x => Ok x | None => Err ExcIndex end) f_ind) rows.

  (** data.py:81-156 __getitem__. *)
  Definition getitem (d : data) (field : string) (ind : list ix) : data * res (list (list T)) :=
    match alookup field (dfields d) with
    | None => (d, Err ExcAssertion)
    | Some _ =>
        match alookup field (darrays d) with
        | None => (d, Err ExcAttribute)
        | Some rows =>
            match ind with
            | [] => (d, Ok rows)
            | _ => match cache_find field ind (dcache d) with
                   | Some f_ind => (d, columns rows f_ind)
                   | None => match f_of field ind with
                             | Err e => (d, Err e)
                             | Ok f_ind =>
                                 (mkData (dfields d) (darrays d) (dcache d ++ [(field, ind, f_ind)])%list, columns rows f_ind)
                             end
                   end
            end
        end
    end.

  (** data.py:220-227 export. *)
  Definition export (d : data) : list (string * option (list (list T))) :=
    map (fun fd => (fst fd, alookup (fst fd) (darrays d))) (dfields d).
End Data.
Arguments mkData {T ix}. Arguments dfields {T ix}. Arguments darrays {T ix}. Arguments dcache {T ix}.
Arguments init_storage {T ix}. Arguments add_fields {T ix}. Arguments update_one {T ix}. Arguments update {T ix}.
Arguments columns {T}. Arguments cache_find {ix}. Arguments export {T ix}. Arguments getitem {T ix}.

(** ** MPCData.prediction (data.py:246-372) *)
Section Prediction.
  Variable T : Type.
  Variable zero : T.
  Variable ix : Type.
  Variable ix_eqb : list ix -> list ix -> bool.
  (** Flattened positions (the array [f_ind], dimensions size x horizon x scenario) of a prediction
      query in opt_x, opt_p or opt_aux (data.py:315-319, 330-337, 348-349, 361-364): a function of
      the optimizer's structures and of structure_scenario, which are fixed after setup; may raise. *)
  Variable pos_of : string -> list ix -> res (list nat).

  (** data.py:240-244: the Data object and prediction_queries. *)
  Record mdata := mkMData { mdat : data T ix; mqueries : list (string * list ix * list nat) }.

  (** data.py:310,325,343,356,368: the stored array a query reads, by its first component. *)
  Definition pred_field (head : string) : option string :=
    if String.eqb head "_x" || String.eqb head "_z" then Some "_opt_x_num"
    else if String.eqb head "_u" then Some "_opt_x_num"
    else if String.eqb head "_tvp" then Some "opt_p_num"
    else if String.eqb head "_aux" then Some "_opt_aux_num"
    else None.

  (** numpy row selection [arr[t_ind, ...]]: negative indices count from the end. *)
  Definition py_row (rows : list (list T)) (t : Z) : res (list T) :=
    let n := Z.of_nat (List.length rows) in
    let t' := if (t <? 0)%Z then (n + t)%Z else t in
    if ((t' <? 0) || (n <=? t'))%Z then Err ExcIndex
    else match nth_error rows (Z.to_nat t') with Some r => Ok r | None => Err ExcIndex end.

  Definition pick (row : list T) (f_ind : list nat) : res (list T) :=
    mapM (fun i => match nth_error row i with Some x => Ok x | None => Err ExcIndex end) f_ind.

  Definition rows_or_zero (d : data T ix) (field : string) : list (list T) :=
    match alookup "_opt_x_num" (darrays d) with
    | Some (_ :: _) => match alookup field (darrays d) with Some r => r | None => [] end
    | _ => [repeat zero (match alookup field (dfields d) with Some n => n | None => 0 end)]
    end.

  (** data.py:293-372 prediction.  [store_full] is meta_data['store_full_solution']. *)
  Definition prediction (store_full : bool) (m : mdata) (head : string) (rest : list ix) (t_ind : Z) : mdata * res (list T) :=
    if negb store_full then (m, Err ExcAssertion)
    else match pred_field head with
         | None => (m, Err ExcValue)
         | Some field =>
             match cache_find ix_eqb head rest (mqueries m) with
             | Some f_ind => (m, let! row := py_row (rows_or_zero (mdat m) field) t_ind in pick row f_ind)
             | None => match pos_of head rest with
                       | Err e => (m, Err e)
                       | Ok f_ind => (mkMData (mdat m) (mqueries m ++ [(head, rest, f_ind)])%list,
                                      let! row := py_row (rows_or_zero (mdat m) field) t_ind in pick row f_ind)
                       end
             end
         end.
End Prediction.
Arguments mkMData {T ix}. Arguments mdat {T ix}. Arguments mqueries {T ix}. Arguments py_row {T}. Arguments pick {T}.
Arguments rows_or_zero {T} zero {ix}. Arguments prediction {T} zero {ix}.

(** ** save_results *)
Section Save.
  Variable D : Type.   (* a Data object *)

  (** The kinds of object isinstance distinguishes (data.py:415-423). *)
  Inductive savable := SMPC (d : D) | SSim (d : D) | SEst (d : D) | SOther.

  (** data.py:413-423. *)
  Fixpoint collect (l : list savable) (results : list (string * D)) : res (list (string * D)) :=
    match l with
    | [] => Ok results
    | SMPC d :: l' => collect l' (aset "mpc" d results)
    | SSim d :: l' => collect l' (aset "simulator" d results)
    | SEst d :: l' => collect l' (aset "estimator" d results)
    | SOther :: _ => Err ExcGeneric
    end.

  (** The file system: path -> contents (the pickled results).  Directories are not modelled
      (result_path is created if missing). *)
  Definition files := list (string * list (string * D)).

  (** '{ind:03d}'. *)
  Definition decimal (n : nat) : string := NilEmpty.string_of_uint (Nat.to_uint n).
  Fixpoint zeros (n : nat) : string := match n with O => "" | S n' => String "0"%char (zeros n') end.
  Definition fmt03d (n : nat) : string := zeros (3 - String.length (decimal n)) ++ decimal n.

  (** data.py:427-432: the naming loop; [fuel] bounds the iterations (python has no bound). *)
  Fixpoint find_name (fs : files) (path name : string) (fuel : nat) (ext : string) (ind : nat) : res string :=
    if amem (path ++ ext ++ ".pkl") fs then
      match fuel with
      | O => Err ExcOutOfFuel
      | S fuel' => find_name fs path name fuel' (fmt03d ind ++ "_" ++ name) (S ind)
      end
    else Ok ext.

  (** data.py:373-435 save_results. *)
  Definition save_results (l : list savable) (name path : string) (overwrite : bool) (fs : files) : res (files * string) :=
    let! results := collect l [] in
    let! name' := if overwrite then Ok name else find_name fs path name (S (List.length fs)) name 1 in
    let file := path ++ name' ++ ".pkl" in
    Ok (aset file results fs, file).

  (** data.py:437-457 load_results (the file must exist). *)
  Definition load_results (file : string) (fs : files) : res (list (string * D)) :=
    match alookup file fs with Some r => Ok r | None => Err ExcGeneric end.
End Save.
Arguments SMPC {D}. Arguments SSim {D}. Arguments SEst {D}. Arguments SOther {D}.
Arguments collect {D}. Arguments find_name {D}. Arguments save_results {D}. Arguments load_results {D}.
