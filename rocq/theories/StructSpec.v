(** * Specification for Structure: an insertion-ordered map from indices to values. *)
From Verif Require Import Base StructModel.

Definition is_prefix (p q : index) : Prop := exists r, q = p ++ r.
Definition proper_prefix (p q : index) : Prop := exists r, r <> [] /\ q = p ++ r.

(** Boolean prefix test (checked against [is_prefix] in StructProofs.prefixb_spec). *)
Fixpoint prefixb (p q : index) : bool :=
  match p, q with
  | [], _ => true
  | x :: p', y :: q' => key_eqb x y && prefixb p' q'
  | _, _ => false
  end.

Section Map.
  Context {V : Type}.
  (** An insertion ordered map is the list of its (index, value) entries. *)
  Definition omap := list (index * val V).
  Definition lookup (m : omap) (i : index) : option (val V) :=
    match find (fun e => index_eqb i (fst e)) m with Some e => Some (snd e) | None => None end.

  (** Value last assigned to [i] in a history of (index, value) assignments. *)
  Fixpoint last_assigned (h : list (index * val V)) (i : index) : option (val V) :=
    match h with
    | [] => None
    | (i', v) :: h' => match last_assigned h' i with
                       | Some w => Some w
                       | None => if index_eqb i i' then Some v else None
                       end
    end.
  (** The distinct elements in order of first occurrence. *)
  Definition first_occurrences (l : list index) : list index :=
    fold_left (fun acc i => if existsb (index_eqb i) acc then acc else acc ++ [i]) l [].

  (** The leaf assignments a nested value stands for, as documented (_structure.py:37-69). *)
  Fixpoint leaves (ind : index) (v : val V) : list (index * val V) :=
    match v with
    | VLeaf _ => [(ind, v)]
    | VList vs => (fix go i vs := match vs with [] => [] | w :: ws => leaves (ind ++ [KI i]) w ++ go (S i) ws end) 0 vs
    | VDict kvs => (fix go kvs := match kvs with [] => [] | (k, w) :: ws => leaves (ind ++ [k]) w ++ go ws end) kvs
    end.

End Map.

(** What a query selects from the list [it] of (element, index) pairs, given the list [feats] of keys
    occurring per level: a query without slices selects the elements whose index starts with it, in
    order; the first slice of a query gives one nested result per selected key of its level. *)
Inductive selects {A} (feats : list (list key)) (it : list (A * index)) : list qel -> sel A -> Prop :=
| Sel_flat ks : selects feats it (map QKey ks) (Flat (filter (fun e => prefixb ks (snd e)) it))
| Sel_nest ks sl q fj rs :
    nth_error feats (List.length ks) = Some fj ->
    Forall2 (fun k r => selects feats it (map QKey ks ++ QKey k :: q) r) (sl fj) rs ->
    selects feats it (map QKey ks ++ QSlice sl :: q) (Nest rs).

(** dict keys are distinct (recursively), as in every python dict. *)
Inductive wf_val {V} : val V -> Prop :=
| Wf_leaf v : wf_val (VLeaf v)
| Wf_list vs : Forall wf_val vs -> wf_val (VList vs)
| Wf_dict kvs : NoDup (map fst kvs) -> Forall (fun kv => wf_val (snd kv)) kvs -> wf_val (VDict kvs).

(** Two selections of the same shape in which the elements at the same places are related by R and have
    the same index. *)
Inductive sel_rel {A B} (R : A -> B -> index -> Prop) : sel A -> sel B -> Prop :=
| SR_flat l l' : Forall2 (fun e e' => snd e = snd e' /\ R (fst e) (fst e') (snd e)) l l' -> sel_rel R (Flat l) (Flat l')
| SR_nest l l' : Forall2 (sel_rel R) l l' -> sel_rel R (Nest l) (Nest l').
Definition res_rel {A B} (R : A -> B -> Prop) (x : res A) (y : res B) : Prop :=
  match x, y with Ok a, Ok b => R a b | Err e, Err e' => e = e' | _, _ => False end.
