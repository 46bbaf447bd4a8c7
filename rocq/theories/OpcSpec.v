(** * Vocabulary for the OPC UA data exchange (C51). *)
From Coq Require Import Ascii.
From Verif Require Import Base OpcModel.
Set Implicit Arguments.
Local Open Scope string_scope.

(** The nine vectors of a do-mpc model: every one of them is exchanged. *)
Definition model_variables : list string := ["aux"; "p"; "tvp"; "u"; "v"; "w"; "x"; "y"; "z"].

(** The text contains 'default'. *)
Definition mentions_default (s : string) : Prop := exists a b, s = a ++ "default" ++ b.

(** Labels of a model's vectors as CasADi gives them: they start with a bracket, and no two entries
    of one vector have the same label. *)
Definition labels_ok (labels : string -> list string) : Prop :=
  forall var, NoDup (labels var) /\ forall l, In l (labels var) -> exists t, l = String "["%char t.

Section S.
  Variable V : Type.
  Variable zero : V.

  (** Servers that arise by registering namespaces and writing to nodes. *)
  Inductive reach : server V -> Prop :=
  | reach_init names : reach (mkSrv names [])
  | reach_reg s ns s' ns' r : reach s -> namespace_from_client zero s ns = (s', ns', r) -> reach s'
  | reach_write s tags d s' r : reach s -> write_to_tags s tags d = (s', r) -> reach s'.

  (** The value last written to a tag by a sequence of writes. *)
  Definition last_written (id : nodeid) (ws : list (nodeid * V)) (v0 : list V) : list V :=
    fold_left (fun acc w => if nodeid_eqb id (fst w) then [snd w] else acc) ws v0.
End S.
