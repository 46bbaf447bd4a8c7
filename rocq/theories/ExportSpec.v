(** * Specification for export: the names under which a plan may be stored. *)
From Verif Require Import Base DataModel SamplingModel.
From Coq Require Import Ascii.
Local Open Scope string_scope.

(** <stem>.pkl, <stem>1.pkl, <stem>2.pkl, ... *)
Definition numbered (stem : string) (i : nat) : string :=
  match i with 0 => stem ++ ".pkl" | _ => stem ++ decimal i ++ ".pkl" end.

Definition has_char (c : ascii) (s : string) : Prop := exists a b, s = a ++ String c b.

(** [name] is [stem], with or without an extension; the extension starts at the last dot of the last
    component of the path, and leading dots of that component do not count. *)
Inductive names_plan : string -> string -> Prop :=
| without_extension dir dots rest :
    (dir = "" \/ exists d, dir = d ++ "/") -> (forall c, has_char c dots -> c = "."%char) ->
    ~ has_char "." rest -> ~ has_char "/" rest ->
    names_plan (dir ++ dots ++ rest) (dir ++ dots ++ rest)
| with_extension dir base ext :
    (dir = "" \/ exists d, dir = d ++ "/") -> (exists c, c <> "."%char /\ has_char c base) -> ~ has_char "/" base ->
    ~ has_char "." ext -> ~ has_char "/" ext ->
    names_plan ((dir ++ base) ++ "." ++ ext) (dir ++ base).
