(** * Model of several OPC UA clients on one server, one server request at a time
    (opcua/_base.py:175-218, opcua/_client.py:112-144), with connection failures.

    OpcModel.v models make_step as one action; here the requests to the server are separate actions, which the
    requests of other clients may interleave with and each of which may fail.  The server, the nodes and the checks
    are those of OpcModel.v.  A client is one thread of control running make_step over and over (async_run
    _base.py:221-227 schedules the next step before it runs make_step, so a step that raises is followed by the
    next one); several threads of one RTBase object are not modelled. *)
From Verif Require Import Base OpcModel.
Set Implicit Arguments.

Section Net.
  Variable V : Type.
  Variable O : Type.       (* the state of a do-mpc object *)

  (** Where a client is inside make_step: outside, before the remaining reads, before the remaining writes. *)
  Inductive pc := PIdle | PRead (todo : list nodeid) (rows : list (list V)) | PWrite (todo : list (nodeid * V)).

  Record client := mkClient {
    c_in : list nodeid;                              (* set_read_tags _base.py:164-172 *)
    c_out : list nodeid;                             (* set_write_tags _base.py:153-160 *)
    c_step : O -> list V -> res (O * wdata V);       (* do_mpc_object.make_step, arbitrary *)
    c_obj : O;
    c_rec : list (list V * wdata V);                 (* the inputs and outputs the do-mpc object has seen *)
    c_pc : pc
  }.
  Definition goto (c : client) (p : pc) : client := mkClient (c_in c) (c_out c) (c_step c) (c_obj c) (c_rec c) p.

  (** _base.py:218: numpy's array of the rows (as in OpcModel.read_from_tags). *)
  Definition rows_array (rows : list (list V)) : res (list V) :=
    match rows with
    | [] => Ok []
    | r :: t => if forallb (fun q => (List.length q =? List.length r)%nat) t then Ok (List.concat rows) else Err ExcValue
    end.

  (** The next action of a client.  [fails] tells whether the connection fails at this action: readData and
      writeData (_client.py:124-127, 139-144) then raise (in the handler of ConnectionRefusedError the attribute
      self.type does not exist, other errors are not caught), which ends the step. *)
  Definition client_action (s : server V) (c : client) (fails : bool) : server V * client :=
    match c_pc c with
    | PIdle => (s, goto c (PRead (c_in c) []))
    | PRead (id :: todo) rows =>                                          (* _base.py:218, _client.py:129-144 *)
        if fails then (s, goto c PIdle)
        else match find id (sv_nodes s) with
             | None => (s, goto c PIdle)
             | Some v => (s, goto c (PRead todo (rows ++ [v])))
             end
    | PRead [] rows =>                                                     (* _base.py:181-182, 194-204 *)
        match rows_array rows with
        | Err _ => (s, goto c PIdle)
        | Ok input =>
            match c_step c (c_obj c) input with
            | Err _ => (s, goto c PIdle)
            | Ok (o', d) =>
                let c' p := mkClient (c_in c) (c_out c) (c_step c) o' (c_rec c ++ [(input, d)]) p in
                match d with
                | WOther _ => (s, c' PIdle)
                | WArr l => if (List.length l =? List.length (c_out c))%nat then (s, c' (PWrite (combine (c_out c) l))) else (s, c' PIdle)
                end
            end
        end
    | PWrite ((id, v) :: todo) =>                                          (* _base.py:207-208, _client.py:112-127 *)
        if fails then (s, goto c PIdle)
        else match write_data s id [v] with
             | Err _ => (s, goto c PIdle)
             | Ok s' => (s', goto c (PWrite todo))
             end
    | PWrite [] => (s, goto c PIdle)
    end.

  (** The server and the clients; a schedule names the client that acts next and whether the connection fails. *)
  Definition net := (server V * (nat -> client))%type.
  Definition net_action (w : net) (a : nat * bool) : net :=
    let (s', c') := client_action (fst w) (snd w (fst a)) (snd a) in
    (s', fun j => if (j =? fst a)%nat then c' else snd w j).
  Definition net_run (w : net) (sched : list (nat * bool)) : net := fold_left net_action sched w.
End Net.
