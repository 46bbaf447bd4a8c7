(** * Vocabulary for the graphics properties (C53, C54). *)
From Coq Require Import ZArith.
From Verif Require Import Base StructModel GfxModel.
Set Implicit Arguments.

(** The kinds of recorded variables that can be drawn. *)
Definition plotted_kinds : list string := ["_x"; "_u"; "_z"; "_tvp"; "_p"; "_aux"]%string.
Definition plotted (v : string) : bool := existsb (String.eqb v) plotted_kinds.

Section Spec.
  Variable T : Type.
  Variable tadd : T -> nat -> T -> T.
  Variable zero : T.

  (** What a program does with one Graphics object; exceptions are caught and the program goes on. *)
  Inductive act := AAdd (d : gdata T) (v n : string) | AClear | APlot (d : gdata T) (t : Z) | APred (d : gdata T) (t : Z).
  Definition step (g : gfx T) (a : act) : gfx T :=
    match a with
    | AAdd d v n => fst (add_line zero d v n g)
    | AClear => clear_all g
    | APlot d t => fst (plot_results d t g)
    | APred d t => fst (plot_predictions tadd d t g)
    end.
  Definition run (h : list act) : gfx T := fold_left step h (gfx_init T).

  (** The variable for which an action draws new result lines: add_line with a known kind of variable that is recorded. *)
  Definition act_vars (a : act) : list (string * string) :=
    match a with
    | AAdd d v n => if plotted v then match d_cols d v n with Some _ => [(v, n)] | None => [] end else []
    | _ => []
    end.
  Definition added (h : list act) : list (string * string) := flat_map act_vars h.

  (** A line shows x against y. *)
  Definition shows (g : gfx T) (id : nat) (x y : list T) : Prop := nth_error (g_canvas g) id = Some (x, y).

  (** The rows up to and including python index t of a record of n rows. *)
  Definition rows_upto {A} (n : nat) (t : Z) (l : list A) : list A :=
    firstn (Z.to_nat ((if (t <? 0)%Z then Z.of_nat n + t else t) + 1)) l.

  (** The data object has the requested variables, all columns as long as the time vector. *)
  Definition has_var (d : gdata T) (v n : string) (k : nat) : Prop :=
    exists cols, d_cols d v n = Some cols /\ List.length cols = k /\ forall c, In c cols -> List.length c = List.length (d_time d).

  (** The same variables with the same numbers of elements are recorded throughout. *)
  Definition consistent (h : list act) (size : string -> string -> nat) (d : gdata T) : Prop :=
    forall v n, In (v, n) (added h) -> has_var d v n (size v n).

  (** The data with which lines are added have the same numbers of elements and of scenarios throughout. *)
  Definition fits (size nscen : string -> string -> nat) (d : gdata T) : Prop :=
    (forall v n cols, d_cols d v n = Some cols -> List.length cols = size v n)
    /\ (forall v n i scen, d_pred d v n i (-1) = Some scen -> List.length scen = nscen v n).
  Definition act_fits size nscen (a : act) : Prop := match a with AAdd d _ _ => fits size nscen d | _ => True end.
End Spec.
