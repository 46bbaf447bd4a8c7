(** * Model of the OPC UA data exchange: do_mpc/opcua/_base.py, _server.py, _client.py, _helper.py.

    Simplifications: a node id (the text "ns=i;s=name") is the pair (i, name); the OPC UA library is
    modelled as a table of nodes (register_namespace returns the index of a known name; adding a node
    under an existing id, reading or writing an unknown id raise); connection failures and the object
    nodes are not modelled; a do-mpc array or DM is the flat list of its numbers. *)
From Verif Require Import Base.
Set Implicit Arguments.
Local Open Scope string_scope.

(** Python's  pat in s . *)
Fixpoint str_in (pat s : string) : bool :=
  prefix pat s || match s with EmptyString => false | String _ t => str_in pat t end.

(** _helper.py:27-53 NamespaceEntry, 58-74 Namespace. *)
Record entry := mkEntry { e_obj : string; e_var : string }.
Record nspace := mkNs { ns_name : string; ns_entries : list entry; ns_index : option nat }.
Definition nodeid := (nat * string)%type.

Definition nodeid_eqb (a b : nodeid) : bool := (fst a =? fst b)%nat && String.eqb (snd a) (snd b).

(** _helper.py:40-53 get_node_id. *)
Definition get_node_id (idx : option nat) (e : entry) : res nodeid :=
  match idx with None => Err ExcGeneric | Some i => Ok (i, e_var e) end.

(** _helper.py:73-74 Namespace.__getitem__. *)
Definition ns_get (ns : nspace) (node : string) : res (list nodeid) :=
  mapM (get_node_id (ns_index ns)) (filter (fun e => String.eqb (e_obj e) node) (ns_entries ns)).

(** _base.py:92-118 namespace_from_model; [labels var] is model[var].labels(). *)
Definition variable_list : list string := ["aux"; "p"; "tvp"; "u"; "v"; "w"; "x"; "y"; "z"].
Definition namespace_from_model (labels : string -> list string) (name : string) : nspace :=
  mkNs name
    (flat_map (fun var => map (mkEntry var) (filter (fun key => negb (str_in "default" key)) (labels var))) variable_list)
    None.

Section Opc.
  Variable V : Type.
  Variable zero : V.

  (** The server: the namespace array and the value (a list, _client.py:121) of every node. *)
  Record server := mkSrv { sv_names : list string; sv_nodes : list (nodeid * list V) }.

  Definition find (id : nodeid) (l : list (nodeid * list V)) : option (list V) :=
    match List.find (fun q => nodeid_eqb id (fst q)) l with Some q => Some (snd q) | None => None end.
  Fixpoint set_node (id : nodeid) (v : list V) (l : list (nodeid * list V)) : list (nodeid * list V) :=
    match l with
    | [] => []
    | q :: t => if nodeid_eqb id (fst q) then (fst q, v) :: t else q :: set_node id v t
    end.

  (** asyncua Server.register_namespace. *)
  Fixpoint index_of (x : string) (l : list string) : option nat :=
    match l with
    | [] => None
    | y :: t => if String.eqb x y then Some 0%nat else option_map S (index_of x t)
    end.
  Definition register (x : string) (l : list string) : nat * list string :=
    match index_of x l with Some i => (i, l) | None => (List.length l, (l ++ [x])%list) end.

  (** _server.py:94-101, 111-129: the loop over the entries.  Each entry is renamed once its node
      exists; an exception leaves the entries and nodes processed so far. *)
  Fixpoint reg_loop (idx : nat) (todo : list entry) (nodes : list (nodeid * list V))
    : list (nodeid * list V) * list entry * bool :=
    match todo with
    | [] => (nodes, [], true)
    | e :: t =>
        let name := e_obj e ++ e_var e in
        match find (idx, name) nodes with
        | Some _ => (nodes, e :: t, false)
        | None => let '(n', t', ok) := reg_loop idx t (nodes ++ [((idx, name), [zero])])%list in
                  (n', mkEntry (e_obj e) name :: t', ok)
        end
    end.

  (** _server.py:80-107 namespace_from_client. *)
  Definition namespace_from_client (s : server) (ns : nspace) : server * nspace * res unit :=
    let (idx, names) := register (ns_name ns) (sv_names s) in
    let '(nodes, es, ok) := reg_loop idx (ns_entries ns) (sv_nodes s) in
    if ok then (mkSrv names nodes, mkNs (ns_name ns) es (Some idx), Ok tt)
    else (mkSrv names nodes, mkNs (ns_name ns) es (ns_index ns), Err ExcGeneric).

  (** _client.py:112-127 writeData. *)
  Definition write_data (s : server) (id : nodeid) (v : list V) : res server :=
    match find id (sv_nodes s) with
    | None => Err ExcGeneric
    | Some _ => Ok (mkSrv (sv_names s) (set_node id v (sv_nodes s)))
    end.

  (** The argument of write_to_tags: an array, DM or structure, or another type. *)
  Inductive wdata := WArr (l : list V) | WOther.

  Fixpoint write_loop (s : server) (l : list (nodeid * V)) : server * res unit :=
    match l with
    | [] => (s, Ok tt)
    | (id, v) :: t => match write_data s id [v] with
                      | Ok s' => write_loop s' t
                      | Err e => (s, Err e)
                      end
    end.

  (** _base.py:186-208 write_to_tags. *)
  Definition write_to_tags (s : server) (tagout : list nodeid) (d : wdata) : server * res unit :=
    match d with
    | WOther => (s, Err ExcType)
    | WArr l => if (List.length l =? List.length tagout)%nat then write_loop s (combine tagout l) else (s, Err ExcGeneric)
    end.

  (** _base.py:211-218 read_from_tags; numpy refuses rows of different length. *)
  Definition read_from_tags (s : server) (tagin : list nodeid) : res (list V) :=
    let! rows := mapM (fun id => match find id (sv_nodes s) with Some v => Ok v | None => Err ExcGeneric end) tagin in
    match rows with
    | [] => Ok []
    | r :: t => if forallb (fun q => (List.length q =? List.length r)%nat) t then Ok (List.concat rows) else Err ExcValue
    end.

  (** _base.py:175-183 make_step; the step of the do-mpc object is an arbitrary function. *)
  Definition make_step (f : list V -> res wdata) (s : server) (tagin tagout : list nodeid) : server * res unit :=
    match read_from_tags s tagin with
    | Err e => (s, Err e)
    | Ok input => match f input with
                  | Err e => (s, Err e)
                  | Ok output => write_to_tags s tagout output
                  end
    end.
End Opc.
