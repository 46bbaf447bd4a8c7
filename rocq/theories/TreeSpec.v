(** * Specification vocabulary for scenario trees (independent of the model's helpers). *)
From Verif Require Import Base TreeModel.

(** Number of branches a node of step k has: c inside the robust horizon, else 1. *)
Definition fan (c nr k : nat) : nat := if k <? nr then c else 1.
(** Number of nodes at step k. *)
Definition nodes (c nr k : nat) : nat := c ^ Nat.min k nr.

(** [node], [br] describe a path from the root: at step k the path is in node [node k] and
    takes branch [br k] to node [node (k+1)], as recorded in the child array. *)
Definition is_path (c nr N : nat) (t : tree) (node br : nat -> nat) : Prop :=
  node 0 = 0 /\
  forall k, k < N -> br k < fan c nr k /\ t_child t k (node k) (br k) = Z.of_nat (node (k+1)).

(** Index of the parameter combination used on the edge taken at step k
    (_mpc.py:1178 [current_scenario = b + branch_offset[k][s]]). *)
Definition combination_on (t : tree) (node br : nat -> nat) (k : nat) : Z :=
  (Z.of_nat (br k) + t_boff t k (node k))%Z.

(** Column j of a stored prediction, step k (data.py, [MPCData.prediction]:
    [f_ind[range(..),:,structure_scenario[..].T].T]): the node it shows. *)
Definition predicted_node (t : tree) (j k : nat) : Z := t_struct t k j.

(** The columns of the prediction are the root-to-leaf paths of the tree, each once:
    one column per leaf, following parent to child, and column j ends in leaf j. *)
Definition prediction_ok (c nr N : nat) (t : tree) : Prop :=
  forall j, j < nodes c nr N ->
    exists node br, is_path c nr N t node br /\ node N = j /\
      forall k, k <= N -> predicted_node t j k = Z.of_nat (node k).
