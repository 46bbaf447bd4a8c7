(** * Model of do_mpc/tools/_structure.py (class Structure). *)
From Verif Require Import Base.

(** One component of a power index: a python str or int (_structure.py:26-34 _tuplify turns a
    single str/int and a list into a tuple, so an index is a list of these). *)
Inductive key := KS (s : string) | KI (i : nat).
Definition key_eqb (a b : key) : bool :=
  match a, b with
  | KS x, KS y => String.eqb x y
  | KI x, KI y => Nat.eqb x y
  | _, _ => false
  end.
Definition index := list key.
Fixpoint index_eqb (a b : index) : bool :=
  match a, b with
  | [], [] => true
  | x :: a', y :: b' => key_eqb x y && index_eqb a' b'
  | _, _ => false
  end.

(** Values: anything ([VLeaf]), or a python list/tuple, or a dict (insertion ordered). *)
Inductive val (V : Type) : Type :=
| VLeaf (v : V)
| VList (vs : list (val V))
| VDict (kvs : list (key * val V)).
Arguments VLeaf {V} v.
Arguments VList {V} vs.
Arguments VDict {V} kvs.

(** _structure.py:71-76 __init__: the parallel lists master / powerindex / index, the features per
    level, and the counter. *)
Record structure (V : Type) := mkStruct {
  master : list (val V); powerindex : list index; features : list (list key);
  sindex : list nat; scount : nat }.
Arguments mkStruct {V}. Arguments master {V}. Arguments powerindex {V}. Arguments features {V}.
Arguments sindex {V}. Arguments scount {V}.

Definition struct_init {V} : structure V := mkStruct [] [] [] [] 0.

(** [ind in self.powerindex]. *)
Definition mem_index (i : index) (l : list index) : bool := existsb (index_eqb i) l.
Definition mem_key (k : key) (l : list key) : bool := existsb (key_eqb k) l.

(** _structure.py:119-120: i = powerindex.index(ind); master[i] = val (first occurrence). *)
Fixpoint replace_first {V} (i : index) (v : val V) (pis : list index) (ms : list (val V)) : list (val V) :=
  match pis, ms with
  | p :: ps, m :: ms' => if index_eqb i p then v :: ms' else m :: replace_first i v ps ms'
  | _, _ => ms
  end.

(** _structure.py:141-145: for i, ind_i in enumerate(ind): grow [features] and append ind_i to
    features[i] unless present. *)
Fixpoint add_features (fs : list (list key)) (ind : index) : list (list key) :=
  match ind with
  | [] => fs
  | k :: ks => match fs with
               | [] => [k] :: add_features [] ks
               | f :: fs' => (if mem_key k f then f else f ++ [k]) :: add_features fs' ks
               end
  end.

(** _structure.py:133-145: a new leaf. *)
Definition append_leaf {V} (s : structure V) (ind : index) (v : val V) : structure V :=
  mkStruct (master s ++ [v]) (powerindex s ++ [ind]) (add_features (features s) ind)
           (sindex s ++ [scount s]) (S (scount s)).

(** _structure.py:115-145 __setitem__. *)
Fixpoint set_item {V} (s : structure V) (ind : index) (v : val V) {struct v} : structure V :=
  if mem_index ind (powerindex s)
  then mkStruct (replace_first ind v (powerindex s) (master s)) (powerindex s) (features s) (sindex s) (scount s)
  else
    match v with
    | VLeaf _ => append_leaf s ind v
    | VList vs =>
        (fix go (i : nat) (vs : list (val V)) (s : structure V) : structure V :=
           match vs with
           | [] => s
           | w :: ws => go (S i) ws (set_item s (ind ++ [KI i]) w)
           end) 0 vs s
    | VDict kvs =>
        (fix go (kvs : list (key * val V)) (s : structure V) : structure V :=
           match kvs with
           | [] => s
           | (k, w) :: ws => go ws (set_item s (ind ++ [k]) w)
           end) kvs s
    end.

(** One component of a query: a key, or a slice (python's slicing of the list of features, an
    arbitrary function on lists here). *)
Inductive qel := QKey (k : key) | QSlice (sl : list key -> list key).

(** What a query returns: a flat list of (element, its index), or one entry per slice element. *)
Inductive sel (A : Type) : Type := Flat (l : list (A * index)) | Nest (l : list (sel A)).
Arguments Flat {A} l. Arguments Nest {A} l.

(** _structure.py:181-186: the loop over the candidates at level j; [ind_i[j]] raises IndexError
    when j = len(ind_i), because the guard is [j > len(ind_i)]. *)
Fixpoint filter_level {A} (j : nat) (k : key) (it : list (A * index)) : res (list (A * index)) :=
  match it with
  | [] => Ok []
  | (a, ind_i) :: rest =>
      if List.length ind_i <? j then filter_level j k rest
      else match nth_error ind_i j with
           | None => Err ExcIndex
           | Some k' => let! r := filter_level j k rest in
                        Ok (if key_eqb k' k then (a, ind_i) :: r else r)
           end
  end.

(** [ind[j] = x] on a list. *)
Definition upd {A} (l : list A) (j : nat) (x : A) : list A := firstn j l ++ x :: skipn (S j) l.

(** _structure.py:156-192 _select.  [fuel] bounds the recursion depth through slices (python has no
    bound); [rest] is the part of [q] still to be visited, starting at position [j]. *)
Fixpoint select {A} (feats : list (list key)) (fuel : nat) (q : list qel) (it : list (A * index)) : res (sel A) :=
  (fix loop (j : nat) (rest : list qel) (it : list (A * index)) {struct rest} : res (sel A) :=
     match rest with
     | [] => Ok (Flat it)
     | QKey k :: rest' => let! it' := filter_level j k it in loop (S j) rest' it'
     | QSlice sl :: _ =>
         match fuel with
         | O => Err ExcOutOfFuel
         | S fuel' =>
             match nth_error feats j with
             | None => Err ExcIndex
             | Some fj =>
                 let! rs := mapM (fun k => select feats fuel' (upd q j (QKey k)) it) (sl fj) in
                 Ok (Nest rs)
             end
         end
     end) 0 q it.

(** _structure.py:148-150 __getitem__ and 86-113 get_index: the values / positions selected. Each
    slice uses one level of recursion, so [length q] is enough fuel (proved in StructProofs). *)
Definition get_item {V} (s : structure V) (q : list qel) : res (sel (val V)) :=
  select (features s) (List.length q) q (combine (master s) (powerindex s)).
Definition get_index {V} (s : structure V) (q : list qel) : res (sel nat) :=
  select (features s) (List.length q) q (combine (sindex s) (powerindex s)).
