(** * Model of SamplingPlanner.export (_samplingplanner.py:256-280) and of save_pickle/load_pickle. *)
From Verif Require Import Base DataModel SamplingModel.
From Coq Require Import Ascii.
Local Open Scope string_scope.

(** str.rfind for one character (None for -1). *)
Fixpoint rfind (c : ascii) (s : string) : option nat :=
  match s with
  | EmptyString => None
  | String a r => match rfind c r with
                  | Some k => Some (S k)
                  | None => if Ascii.eqb a c then Some 0 else None
                  end
  end.

(** os.path.splitext(p)[0] (posix): the part before the last dot, if that dot is in the last component
    and not all characters of the component before it are dots. *)
Definition splitext_root (p : string) : string :=
  match rfind "." p with
  | None => p
  | Some d =>
      let start := match rfind "/" p with Some k => S k | None => 0 end in
      if (Nat.leb start d) && existsb (fun i => match String.get i p with Some a => negb (Ascii.eqb a ".") | None => false end) (seq start (d - start))
      then substring 0 d p else p
  end.

Section Export.
  Variable P : Type.     (* plans *)
  Notation disk := (list (string * content P)).

  (** _samplingplanner.py:276-280: the loop over the numbers. *)
  Fixpoint first_free (fs : disk) (dir root : string) (is : list nat) : option string :=
    match is with
    | [] => None
    | i :: is' => let full := dir ++ root ++ decimal i ++ ".pkl" in
                  if amem full fs then first_free fs dir root is' else Some full
    end.
  (** _samplingplanner.py:270-280: the file name given to save_pickle, if it is called. *)
  Definition export_name (fs : disk) (dir : string) (overwrite : bool) (name : string) : option string :=
    let root := splitext_root name in
    let full := dir ++ root ++ ".pkl" in
    if negb (amem full fs) || overwrite then Some full else first_free fs dir root (seq 1 9999).

  (** tools/__init__.py:36-39 save_pickle: the contents of the disk before, while the file is written
      (open truncates it), and after; files are identified by the name under which they are opened. *)
  Definition save_pickle_states (fs : disk) (filename : string) (p : P) : list disk :=
    let target := pickle_target filename in [fs; aset target Partial fs; aset target (Whole p) fs].
  (** _samplingplanner.py:256-280 export: the contents of the disk at the points where it may be interrupted;
      the last one is the result. *)
  Definition export_states (fs : disk) (dir : string) (overwrite : bool) (name : string) (p : P) : list disk :=
    match export_name fs dir overwrite name with
    | None => [fs]
    | Some f => save_pickle_states fs f p
    end.
  Definition export (fs : disk) (dir : string) (overwrite : bool) (name : string) (p : P) : disk :=
    last (export_states fs dir overwrite name p) fs.

  (** tools/__init__.py:41-44 load_pickle. *)
  Definition load_pickle (fs : disk) (file : string) : res P :=
    match alookup file fs with
    | Some (Whole p) => Ok p
    | _ => Err ExcGeneric
    end.
End Export.
Arguments first_free {P}. Arguments export_name {P}. Arguments save_pickle_states {P}. Arguments export_states {P}.
Arguments export {P}. Arguments load_pickle {P}.
