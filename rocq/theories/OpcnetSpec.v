(** * Specification for C100: what a client of an OPC UA server relies on. *)
From Verif Require Import Base OpcModel OpcnetModel.
Set Implicit Arguments.

Section Spec.
  Variables V O : Type.

  (** Nobody else writes the tags client [i] writes; they are different nodes of the server. *)
  Definition sole_writer (w : net V O) (i : nat) : Prop :=
    NoDup (c_out (snd w i)) /\ (forall id, In id (c_out (snd w i)) -> find id (sv_nodes (fst w)) <> None)
    /\ (forall j id, j <> i -> In id (c_out (snd w i)) -> ~ In id (c_out (snd w j))).

  (** The do-mpc object returns one number per output tag (or raises). *)
  Definition right_size (c : client V O) : Prop :=
    forall o input o' d, c_step c o input = Ok (o', d) -> exists l, d = WArr l /\ List.length l = List.length (c_out c).

  (** The server holds [out] in the tags [tags]. *)
  Definition holds (s : server V) (tags : list nodeid) (out : list V) : Prop :=
    List.length out = List.length tags
    /\ forall k id v, nth_error tags k = Some id -> nth_error out k = Some v -> find id (sv_nodes s) = Some [v].

  (** Client [i] is not connected badly at any of its own actions. *)
  Definition no_failure (i : nat) (sched : list (nat * bool)) : Prop := ~ In (i, true) sched.

  (** A controller and a plant stepping in turns: the states of the two objects, the last control input and the last
      measurement, after [n] rounds. *)
  Fixpoint ideal_loop (ctrl plant : O -> list V -> option (O * list V)) (n : nat) (st : O * O * list V * list V)
    : option (O * O * list V * list V) :=
    match n with
    | 0 => Some st
    | S n' => match ideal_loop ctrl plant n' st with
              | None => None
              | Some (oc, op, _, x) =>
                  match ctrl oc x with
                  | None => None
                  | Some (oc', u) => match plant op u with
                                     | None => None
                                     | Some (op', x') => Some (oc', op', u, x')
                                     end
                  end
              end
    end.
  (** All clients are outside make_step and nothing has been recorded. *)
  Definition fresh (w : net V O) : Prop := forall j, c_pc (snd w j) = PIdle V /\ c_rec (snd w j) = [].

  (** After the first [n] actions of the schedule the tag held [r]. *)
  Definition row_at (w : net V O) (sched : list (nat * bool)) (n : nat) (id : nodeid) (r : list V) : Prop :=
    n <= List.length sched /\ find id (sv_nodes (fst (net_run w (firstn n sched)))) = Some r.
  (** Every row was the value of its tag at some moment of the schedule; later tags at no earlier moments. *)
  Fixpoint ascending (lo : nat) (l : list nat) : Prop := match l with [] => True | n :: t => lo <= n /\ ascending n t end.
  Definition were_there (w : net V O) (sched : list (nat * bool)) (tags : list nodeid) (rows : list (list V)) : Prop :=
    exists ns, ascending 0 ns /\ List.length ns = List.length rows /\ List.length tags = List.length rows
      /\ forall k n id r, nth_error ns k = Some n -> nth_error tags k = Some id -> nth_error rows k = Some r -> row_at w sched n id r.
End Spec.
