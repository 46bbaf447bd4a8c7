(** * What a user expects of the functions of a model (independent of SymModel's helpers). *)
From Verif Require Import Base DataModel MdlModel MdlSpec SymModel.
Local Open Scope string_scope.

Section S.
  Context {V : Type}.
  Notation ex := (ex V).
  Notation decl := (decl ex).

  (** Numbers for the variables: by space, name and position. *)
  Definition values := space -> string -> nat -> V.
  (** The column handed to a function for the variables [l] of a space. *)
  Definition column (val : values) (s : space) (l : list (string * nat)) : list V :=
    flat_map (fun v => map (val s (fst v)) (seq 0 (snd v))) l.
  (** The environment in which the user's own expressions have their values. *)
  Definition means (rho : sym -> V) (g : nat) (val : values) : Prop := forall s n i, rho (Own g s n i) = val s n i.

  (** Noise variables: one per equation with noise, named after it. *)
  Definition noise_vars (l : list (string * list ex * bool)) : list (string * nat) :=
    flat_map (fun c : string * list ex * bool => match c with (n, e, b) => if b then [(n ++ "_noise", List.length e)] else [] end) l.
  (** The variables of a space after the history [h] (measurement noise: all states are measured, with
      noise, if set_meas was never called). *)
  Definition vars_of (h : list decl) (s : space) : list (string * nat) :=
    match s with
    | SpK k => declared k h
    | SpW => noise_vars (rhs_calls [] h)
    | SpV => match meas_calls h with
             | [] => map (fun v => (fst v ++ "_noise", snd v)) (declared Kx h)
             | l => noise_vars l
             end
    end.
  Definition columns (h : list decl) (val : values) (l : list space) : list (list V) :=
    map (fun s => column val s (vars_of h s)) l.

  Definition x_u_z_tvp_p : list space := [SpK Kx; SpK Ku; SpK Kz; SpK Ktvp; SpK Kp].
  Definition rhs_args : list space := [SpK Kx; SpK Ku; SpK Kz; SpK Ktvp; SpK Kp; SpW].
  Definition meas_args : list space := [SpK Kx; SpK Ku; SpK Kz; SpK Ktvp; SpK Kp; SpV].

  (** A symbol is a declared variable of one of the spaces. *)
  Definition declared_in (h : list decl) (l : list space) (s : sym) : Prop :=
    exists sp n i size, s = Own 0 sp n i /\ In sp l /\ In (n, size) (vars_of h sp) /\ i < size.

  (** The expressions of the user's calls. *)
  Definition decl_exprs (d : decl) : list ex :=
    match d with DVar _ _ _ => [] | DExpr _ e => e | DMeas _ e _ => e | DRhs _ e _ => e | DAlg _ e => e end.
  (** They cannot mention symbols created later by setup, and each noise variable is introduced once. *)
  Definition user_history (h : list decl) : Prop :=
    (forall d e g s n i, In d h -> In e (decl_exprs d) -> In (Own (S g) s n i) (syms V e) -> False) /\
    NoDup (map fst (noise_vars (rhs_calls [] h))) /\ NoDup (map fst (noise_vars (meas_calls h))).
End S.

(** What the functions should return, in the user's own terms: the values of the user's expressions, plus
    the noise, in the order of declaration. *)
Section Expected.
  Context {V : Type}.
  Variable op : nat -> V -> V -> V.
  Variable v0 : V.
  Notation decl := (decl (ex V)).
  Variable val : values (V := V).
  Variable rho : sym -> V.

  (** entry [i] of an equation: its value, plus entry [i] of its noise variable if it has noise *)
  Definition noisy (sp : space) (n : string) (e : list (ex V)) (b : bool) : list V :=
    map (fun ie : nat * ex V => if b then op 0 (eval V op rho (snd ie)) (val sp (n ++ "_noise") (fst ie)) else eval V op rho (snd ie))
        (combine (seq 0 (List.length e)) e).
  (** a right-hand side of one entry serves all entries of the state *)
  Definition spread (size : nat) (l : list V) : list V :=
    if Nat.eqb (List.length l) size then l else repeat (hd v0 l) size.
  Definition rhs_values (h : list decl) : list V :=
    flat_map (fun v => match last_rhs (fst v) h with
                       | Some (e, b) => spread (snd v) (noisy SpW (fst v) e b)
                       | None => []
                       end) (declared Kx h).
  Definition alg_values (h : list decl) : list V := flat_map (fun q => map (eval V op rho) (snd q)) (alg_calls h).
  (** the first entry is the placeholder "default" every model has *)
  Definition aux_values (h : list decl) : list V := v0 :: flat_map (fun q => map (eval V op rho) (snd q)) (expr_calls h).
  Definition meas_values (h : list decl) : list V :=
    match meas_calls h with
    | [] => flat_map (fun v => map (fun i => op 0 (val (SpK Kx) (fst v) i) (val SpV (fst v ++ "_noise") i)) (seq 0 (snd v))) (declared Kx h)
    | l => flat_map (fun c => noisy SpV (fst (fst c)) (snd (fst c)) (snd c)) l
    end.
End Expected.

(** Structures of expressions have the same entries: names and lengths. *)
Definition same_entries {A B} (l : list (string * list A)) (l' : list (string * list B)) : Prop :=
  map (fun q => (fst q, List.length (snd q))) l = map (fun q => (fst q, List.length (snd q))) l'.
(** All entries of a structure, one after the other. *)
Definition entries {A} (l : list (string * list A)) : list A := flat_map snd l.
