(** * Model of the scenario tree of the robust multi-stage MPC.
    do_mpc/optimizer.py, [Optimizer._setup_scenario_tree], lines 987-1036. *)
From Verif Require Import Base.

(** optimizer.py:1000 [n_branches = [n_combinations if k < n_robust else 1 for k in range(nk)]] *)
Definition n_branches (c nr k : nat) : nat := if k <? nr then c else 1.

(** optimizer.py:1002 [n_scenarios = [n_combinations**min(k, n_robust) for k in range(nk+1)]] *)
Definition n_scenarios (c nr k : nat) : nat := c ^ Nat.min k nr.

(** The four integer arrays filled by the method (optimizer.py:1004-1007).  An array is
    a function from its indices; [t_oob] records that a write left the numpy shape, i.e.
    that python would have raised IndexError. *)
Record tree := mkTree {
  t_child  : nat -> nat -> nat -> Z;
  t_parent : nat -> nat -> Z;
  t_boff   : nat -> nat -> Z;
  t_struct : nat -> nat -> Z;
  t_oob    : bool }.

(** optimizer.py:1004-1007: initial contents (-1, -1, -1 and 0). *)
Definition tree0 : tree :=
  mkTree (fun _ _ _ => (-1)%Z) (fun _ _ => (-1)%Z) (fun _ _ => (-1)%Z) (fun _ _ => 0%Z) false.

Definition upd2 (f : nat -> nat -> Z) (i j : nat) (v : Z) : nat -> nat -> Z :=
  fun i' j' => if (i' =? i) && (j' =? j) then v else f i' j'.
Definition upd3 (f : nat -> nat -> nat -> Z) (i j l : nat) (v : Z) : nat -> nat -> nat -> Z :=
  fun i' j' l' => if (i' =? i) && (j' =? j) && (l' =? l) then v else f i' j' l'.

Section Loops.
  Variables c nr nk : nat.
  (** shapes, optimizer.py:1004-1007 *)
  Definition width : nat := n_scenarios c nr nk.       (* n_scenarios[-1] *)
  Definition bwidth : nat := n_branches c nr 0.        (* n_branches[0]   *)

  (** Body of the innermost loop, optimizer.py:1015-1020. *)
  Definition body_b (k s : nat) (st : tree * nat) (b : nat) : tree * nat :=
    let '(t, counter) := st in
    ( mkTree (upd3 (t_child t) k s b (Z.of_nat counter))
             (upd2 (t_parent t) (k+1) counter (Z.of_nat s))
             (t_boff t)
             (upd2 (upd2 (t_struct t) k counter (Z.of_nat s)) (k+1) counter (Z.of_nat s))
             (t_oob t || negb ((k <? nk) && (s <? width) && (b <? bwidth) && (counter <? width))),
      counter + 1 ).

  (** optimizer.py:1021-1027: store the range of branches. *)
  Definition offset_of (k s : nat) : Z :=
    if nr =? 0 then 0%Z
    else if k <? nr then 0%Z
    else Z.of_nat (s mod n_branches c nr 0).

  (** Body of the loop over scenarios, optimizer.py:1013-1027. *)
  Definition body_s (k : nat) (st : tree * nat) (s : nat) : tree * nat :=
    let '(t, counter) := fold_left (body_b k s) (seq 0 (n_branches c nr k)) st in
    ( mkTree (t_child t) (t_parent t) (upd2 (t_boff t) k s (offset_of k s)) (t_struct t)
             (t_oob t || negb ((k <? nk) && (s <? width))),
      counter ).

  (** Body of the outermost loop, optimizer.py:1009-1027. *)
  Definition body_k (t : tree) (k : nat) : tree :=
    fst (fold_left (body_s k) (seq 0 (n_scenarios c nr k)) (t, 0)).

  (** The whole method.  [n_branches[0]] raises IndexError for an empty horizon. *)
  Definition setup_scenario_tree : res tree :=
    if nk =? 0 then Err ExcIndex
    else let t := fold_left body_k (seq 0 nk) tree0 in
         if t_oob t then Err ExcIndex else Ok t.
End Loops.
