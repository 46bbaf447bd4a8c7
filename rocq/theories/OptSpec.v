(** * Vocabulary for the low-level NLP interface (C77, C78, C79). *)
From Coq Require Import Reals.
From Verif Require Import Base MpcModel OptModel.
Import List.
Set Implicit Arguments.
Local Open Scope R_scope.

(** A number against an extended lower / upper bound. *)
Definition above (v : xr) (r : R) : Prop := match v with MInf => True | Fin a => a <= r | PInf => False end.
Definition below (v : xr) (r : R) : Prop := match v with PInf => True | Fin a => r <= a | MInf => False end.
Definition ok_side (d : side) (v : xr) (r : R) : Prop := match d with Lower => above v r | Upper => below v r end.

Section Spec.
  Variable E : OEnv.
  Notation ex := (list R -> Prm E -> R).
  Notation ocall := (ocall E).

  (** A list of constraint functions holds at (x, p) with the given lower and upper bounds, entry by entry. *)
  Definition holds (gs : list ex) (ls us : list xr) (x : list R) (p : Prm E) : Prop :=
    forall j g l u, nth_error gs j = Some g -> nth_error ls j = Some l -> nth_error us j = Some u -> above l (g x p) /\ below u (g x p).

  (** What the user added between prepare_nlp and create_nlp. *)
  Definition extra_cons (h : list ocall) : list (list ex) := flat_map (fun c => match c with OAppCons g => [g] | _ => [] end) h.
  Definition extra_lb (h : list ocall) : list (list xr) := flat_map (fun c => match c with OAppGlb l => [l] | _ => [] end) h.
  Definition extra_ub (h : list ocall) : list (list xr) := flat_map (fun c => match c with OAppGub u => [u] | _ => [] end) h.
  (** The objective after assignments nlp_obj = f and nlp_obj += f. *)
  Definition user_cost (f0 : ex) (h : list ocall) : ex :=
    fold_left (fun f c => match c with OObj g => g | OAddCost g => fun x p => f x p + g x p | _ => f end) h f0.
  (** The parameters last assigned. *)
  Definition user_p (p0 : Prm E) (h : list ocall) : Prm E := fold_left (fun p c => match c with OP p' => p' | _ => p end) h p0.
  (** The configuration after the changes made so far. *)
  Definition user_cfg (c0 : Cfg E) (h : list ocall) : Cfg E := fold_left (fun c k => match k with OCfg f => f c | _ => c end) h c0.
  Definition user_bnd (b0 : Bnd E) (h : list ocall) : Bnd E := fold_left (fun c k => match k with OBnd f => f c | _ => c end) h b0.
  (** The bounds of all constraints last assigned after create_nlp. *)
  Definition last_lb (l0 : list xr) (h : list ocall) : list xr := fold_left (fun l c => match c with OGlb (CVec v) => v | _ => l end) h l0.
  Definition last_ub (l0 : list xr) (h : list ocall) : list xr := fold_left (fun l c => match c with OGub (CVec v) => v | _ => l end) h l0.
  (** Assigned vectors have the size of what they replace: n variables, m constraints. *)
  Definition sized (n m : nat) (c : ocall) : Prop :=
    match c with
    | OX x => List.length x = n
    | OGlb v | OGub v => exists l, v = CVec l /\ List.length l = m
    | _ => True
    end.
  (** Every added block of constraints comes with blocks of bounds of the same size. *)
  Definition bounds_given (h : list ocall) : Prop :=
    map (@List.length _) (extra_lb h) = map (@List.length _) (extra_cons h) /\ map (@List.length _) (extra_ub h) = map (@List.length _) (extra_cons h).

  (** An assigned initial guess has the size of the problem. *)
  Definition guess_ok (n : nat) (c : ocall) : Prop := match c with OX x => List.length x = n | _ => True end.
  (** Kinds of calls. *)
  Definition creating (c : ocall) : bool := match c with OCreate | OSetup => true | _ => false end.
  Definition adding (c : ocall) : bool := match c with OCons _ | OAppCons _ => true | _ => false end.
  Definition building (c : ocall) : bool := match c with OPrepare | OCreate | OSetup => true | _ => false end.
  Definition replacing (c : ocall) : bool := match c with OCons _ | OGlb _ | OGub _ => true | _ => false end.
  Definition accessing (c : ocall) : bool :=
    match c with OObj _ | OAddCost _ | OCons _ | OGlb _ | OGub _ | OAppCons _ | OAppGlb _ | OAppGub _ => true | _ => false end.

  (** A built problem is consistent (C10, C13, C23 prove this of what _prepare_nlp builds): scaling factors
      are positive and one per variable; every block of constraints has bounds; indices address distinct
      entries. *)
  Record consistent (b : base E) : Prop := mkCons {
    c_sc : List.length (b_scal b) = b_n b;
    c_pos : forall s, In s (b_scal b) -> 0 < s;
    c_lb : map (@List.length _) (b_glb b) = map (@List.length _) (b_g b);
    c_ub : map (@List.length _) (b_gub b) = map (@List.length _) (b_g b);
    c_ix : forall i pos, b_ix b i = Ok pos -> NoDup pos /\ forall q, In q pos -> (q < b_n b)%nat;
    c_ord : forall d bd w, In w (b_ord b d bd) -> NoDup (fst w) /\ List.length (fst w) = List.length (snd w) /\ forall q, In q (fst w) -> (q < b_n b)%nat }.

  (** The solver returns vectors of the right sizes. *)
  Definition good_solver (S_ : request E -> answer E) : Prop :=
    forall q, List.length (a_x (S_ q)) = p_n (q_nlp q) /\ List.length (a_lx (S_ q)) = p_n (q_nlp q) /\ List.length (a_lg (S_ q)) = List.length (p_g (q_nlp q)).

  (** ** The bound in force for entry q, in physical units *)
  Definition assign_pairs (w : list (nat * xr)) (f : nat -> xr) : nat -> xr :=
    fun q => match find (fun pv => Nat.eqb (fst pv) q) w with Some pv => snd pv | None => f q end.
  (** ordinary bounds: the assignments of _update_bounds one after the other *)
  Definition ordinary_bounds (b : base E) (d : side) (bd : Bnd E) (f : nat -> xr) : nat -> xr :=
    fold_left (fun f w => assign_pairs (combine (fst w) (snd w)) f) (b_ord b d bd) f.
  (** one value for all addressed entries, or one per entry *)
  Definition direct_values (pos : list nat) (vals : list xr) : option (list (nat * xr)) :=
    match vals with
    | [v] => Some (map (fun p => (p, v)) pos)
    | _ => if Nat.eqb (List.length vals) (List.length pos) then Some (combine pos vals) else None
    end.
  Definition infinite (d : side) : xr := match d with Lower => MInf | Upper => PInf end.
  (** History after prepare_nlp: ordinary bounds (structure bd) and direct assignments to lb_opt_x / ub_opt_x. *)
  Fixpoint in_force (b : base E) (d : side) (bd : Bnd E) (f : nat -> xr) (h : list ocall) : nat -> xr :=
    match h with
    | [] => f
    | OBnd g :: h' => in_force b d (g bd) (ordinary_bounds b d (g bd) f) h'
    | OOptx d' i vals :: h' =>
        in_force b d bd
          (if match d, d' with Lower, Lower | Upper, Upper => true | _, _ => false end
           then match b_ix b i with
                | Ok pos => match direct_values pos vals with Some w => assign_pairs w f | None => f end
                | Err _ => f
                end
           else f) h'
    | _ :: h' => in_force b d bd f h'
    end.
End Spec.
Arguments holds {E} gs ls us x p.
