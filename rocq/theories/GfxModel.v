(** * Model of do_mpc/graphics.py: Graphics.add_line, clear, plot_results, plot_predictions and animate.
    Lines (matplotlib Line2D objects) are numbered in the order in which they are created; the canvas
    holds what each line currently shows.  Colours, styles and axes are not modelled. *)
From Coq Require Import ZArith.
From Verif Require Import Base StructModel DataModel.
Set Implicit Arguments.
Local Open Scope string_scope.

Section Gfx.
  Variable T : Type.                    (* numbers *)
  Variable tadd : T -> nat -> T -> T.   (* t_now + k * t_step *)

  (** The data object at the moment of a call.
      - [d_time]: data['_time'];
      - [d_cols v n]: the columns of data[v, n], None if the query raises;
      - [d_dtype_mpc], [d_full]: data.dtype == 'MPC', meta_data['store_full_solution'];
      - [d_pred v n i t]: for element i, data.prediction((v, n, i), t_ind = t)[0], one list per scenario; None if
        the query raises (data.py:246-373; in particular ValueError for '_p'). *)
  Record gdata := mkD { d_time : list T; d_cols : string -> string -> option (list (list T));
                        d_dtype_mpc : bool; d_full : bool; d_tstep : T;
                        d_pred : string -> string -> nat -> Z -> option (list (list T)) }.

  Definition line := (list T * list T)%type.
  Record gfx := mkG { g_res : structure nat; g_pred : structure nat; g_canvas : list line }.

  (** graphics.py:108-118 __init__ *)
  Definition gfx_init : gfx := mkG struct_init struct_init [].

  Definition valid_type (v : string) : bool :=
    existsb (String.eqb v) ["_x"; "_u"; "_z"; "_tvp"; "_p"; "_aux"].

  (** axis.plot(x, y): one new line for each column of y, all with the same x. *)
  Definition plot (canvas : list line) (x : list T) (cols : list (list T)) : list line * list nat :=
    ((canvas ++ map (fun c => (x, c)) cols)%list, seq (List.length canvas) (List.length cols)).

  Definition ids_val (ids : list nat) : val nat := VList (map VLeaf ids).

  (** graphics.py:277-285: the prediction lines, for i in range(y_data.shape[0]); the lines show x_data =
      zeros until the first plot_predictions ([zero]). *)
  Fixpoint add_pred (zero : T) (d : gdata) (v n : string) (is : list nat) (g : gfx) : gfx * res unit :=
    match is with
    | [] => (g, Ok tt)
    | i :: is' =>
        match d_pred d v n i (-1) with
        | None => (g, Err ExcValue)
        | Some scen =>
            let x := match scen with [] => [] | c :: _ => repeat zero (List.length c) end in
            let '(canvas, ids) := plot (g_canvas g) x scen in
            add_pred zero d v n is' (mkG (g_res g) (set_item (g_pred g) [KS v; KS n; KI i] (ids_val ids)) canvas)
        end
    end.

  (** graphics.py:242-287 add_line (the argument types are right; line 269 checks the kind). *)
  Definition add_line (zero : T) (d : gdata) (v n : string) (g : gfx) : gfx * res unit :=
    if negb (valid_type v) then (g, Err ExcAssertion)
    else match d_cols d v n with
         | None => (g, Err ExcGeneric)
         | Some cols =>
             let '(canvas, ids) := plot (g_canvas g) (d_time d) cols in
             let g1 := mkG (set_item (g_res g) [KS v; KS n] (ids_val ids)) (g_pred g) canvas in
             if (d_dtype_mpc d && d_full d)%bool
             then (* y_data = self.data.prediction((var_type, var_name)): raises for '_p' *)
                  match d_pred d v n 0 (-1) with
                  | None => (g1, Err ExcValue)
                  | Some _ => add_pred zero d v n (seq 0 (List.length cols)) g1
                  end
             else (g1, Ok tt)
         end.

  Definition set_data (canvas : list line) (id : nat) (l : line) : list line := upd canvas id l.

  (** graphics.py:230-240 clear() *)
  Definition leaf_id (m : val nat) : option nat := match m with VLeaf i => Some i | _ => None end.
  Definition clear_all (g : gfx) : gfx :=
    mkG (g_res g) (g_pred g)
        (fold_left (fun cv m => match leaf_id m with Some i => set_data cv i ([], []) | None => cv end) (master (g_res g)) (g_canvas g)).

  (** python's l[:z] *)
  Definition pslice {A} (l : list A) (z : Z) : list A :=
    let k := if (z <? 0)%Z then (Z.of_nat (List.length l) + z)%Z else z in firstn (Z.to_nat k) l.

  (** data[ind] for ind = (v, n, i) *)
  Definition column (d : gdata) (ind : index) : option (list T) :=
    match ind with
    | [KS v; KS n; KI i] => match d_cols d v n with Some cols => nth_error cols i | None => None end
    | _ => None
    end.

  (** graphics.py:304-310: the lines one after the other *)
  Fixpoint plot_loop (d : gdata) (t : Z) (ms : list (val nat)) (pis : list index) (cv : list line) : list line * res unit :=
    match ms, pis with
    | m :: ms', ind :: pis' =>
        match column d ind, leaf_id m with
        | Some c, Some id =>
            let l := if Z.eqb t (-1) then (d_time d, c) else (pslice (d_time d) (t + 1), pslice c (t + 1)) in
            plot_loop d t ms' pis' (set_data cv id l)
        | _, _ => (cv, Err ExcGeneric)
        end
    | _, _ => (cv, Ok tt)
    end.

  (** graphics.py:289-310 plot_results (t_ind is an int) *)
  Definition plot_results (d : gdata) (t : Z) (g : gfx) : gfx * res unit :=
    if negb (Z.abs t <=? Z.of_nat (List.length (d_time d)))%Z then (g, Err ExcAssertion)
    else let '(cv, r) := plot_loop d t (master (g_res g)) (powerindex (g_res g)) (g_canvas g) in
         (mkG (g_res g) (g_pred g) cv, r).

  (** l[z] of numpy *)
  Definition pnth {A} (l : list A) (z : Z) : option A :=
    let k := if (z <? 0)%Z then (Z.of_nat (List.length l) + z)%Z else z in
    if (k <? 0)%Z then None else nth_error l (Z.to_nat k).

  (** self.data.prediction(ind_i[:-1], t_ind)[0, :, ind_i[-1]] *)
  Definition pred_column (d : gdata) (t : Z) (ind : index) : option (list T) :=
    match ind with
    | [KS v; KS n; KI i; KI k] => match d_pred d v n i t with Some scen => nth_error scen k | None => None end
    | _ => None
    end.

  Fixpoint pred_loop (d : gdata) (t : Z) (now : T) (ms : list (val nat)) (pis : list index) (cv : list line) : list line * res unit :=
    match ms, pis with
    | m :: ms', ind :: pis' =>
        match pred_column d t ind, leaf_id m with
        | Some y, Some id =>
            pred_loop d t now ms' pis' (set_data cv id (map (fun k => tadd now k (d_tstep d)) (seq 0 (List.length y)), y))
        | _, _ => (cv, Err ExcGeneric)
        end
    | _, _ => (cv, Ok tt)
    end.

  (** graphics.py:312-348 plot_predictions *)
  Definition plot_predictions (d : gdata) (t : Z) (g : gfx) : gfx * res unit :=
    if negb (d_dtype_mpc d) then (g, Err ExcAssertion)
    else if negb (d_full d) then (g, Err ExcAssertion)
    else if negb (Z.abs t <=? Z.of_nat (List.length (d_time d)))%Z then (g, Err ExcAssertion)
    else match pnth (d_time d) t with
         | None => (g, Err ExcIndex)
         | Some now =>
             let '(cv, r) := pred_loop d t now (master (g_pred g)) (powerindex (g_pred g)) (g_canvas g) in
             (mkG (g_res g) (g_pred g) cv, r)
         end.

  (** graphics.py:477-483: one frame of animate *)
  Definition frame (d : gdata) (t : Z) (g : gfx) : gfx * res unit :=
    match plot_results d t g with
    | (g1, Ok _) => plot_predictions d t g1
    | (g1, Err e) => (g1, Err e)
    end.

  (** ** default_plot *)
  (** An axis: its label and the lines drawn on it. *)
  Definition axis := (string * list nat)%type.

  (** graphics.py:423-440: one axis after the other, add_line then set_ylabel. *)
  Fixpoint draw (zero : T) (d : gdata) (l : list (string * string)) (g : gfx) : gfx * list axis * res unit :=
    match l with
    | [] => (g, [], Ok tt)
    | (v, n) :: l' =>
        match add_line zero d v n g with
        | (g1, Ok _) =>
            let k := List.length (g_canvas g) in
            let '(g2, axs, r) := draw zero d l' g1 in
            (g2, (n, seq k (List.length (g_canvas g1) - k)) :: axs, r)
        | (g1, Err e) => (g1, [], Err e)
        end
    end.

  (** set(l).issubset(k) *)
  Definition subset (l k : list string) : bool := forallb (fun n => existsb (String.eqb n) k) l.

  (** graphics.py:374-403: the names to plot.  [keys v] is data.model[v].keys() (a new list each time); all but
      the states have the placeholder "default" first, which is popped.  Line 384 checks the list of
      algebraic states against the inputs. *)
  Definition choose (own allowed : list string) (pop : bool) (given : option (list string)) : res (list string) :=
    match given with
    | None => if pop then match own with [] => Err ExcIndex | _ :: l => Ok l end else Ok own
    | Some l => let! _ := py_assert (subset l allowed) in Ok l
    end.

  (** graphics.py:350-445 default_plot; matplotlib refuses a figure without axes (before line 417 is reached). *)
  Definition default_plot (zero : T) (d : gdata) (keys : string -> list string)
      (states daes inputs auxs : option (list string)) : res (gfx * list axis) :=
    let! xs := choose (keys "_x") (keys "_x") false states in
    let! zs := choose (keys "_z") (keys "_u") true daes in
    let! us := choose (keys "_u") (keys "_u") true inputs in
    let! ax := choose (keys "_aux") (keys "_aux") true auxs in
    if Nat.eqb (List.length xs + List.length us + List.length ax + List.length zs) 0 then Err ExcValue
    else match draw zero d (map (pair "_x") xs ++ map (pair "_z") zs ++ map (pair "_u") us ++ map (pair "_aux") ax)%list gfx_init with
         | (g, axs, Ok _) => Ok (g, axs)
         | (_, _, Err e) => Err e
         end.
End Gfx.

(** ** animate: the exported file *)

(** 'mp4' in format *)
Fixpoint contains (sub s : string) : bool :=
  (String.prefix sub s || match s with EmptyString => false | String _ s' => contains sub s' end)%bool.

(** graphics.py:487-498: the extension, by format or for a user-supplied writer. *)
Definition extension (writer : bool) (format : string) : res string :=
  if writer then Ok ""
  else if contains "mp4" format then Ok "mp4"
  else if contains "gif" format then Ok "gif" else Err ExcGeneric.

(** graphics.py:487-511.  The naming loop (lines 503-509) is the same as that of save_results: it tests the
    name with extension '.pkl' ([DataModel.find_name]).  anim.save writes the file and replaces what is
    there (matplotlib); the frames are drawn by then ([content]).  The directory is created if missing
    (not modelled). *)
Definition animate_save {D} (fs : files D) (path name : string) (overwrite : bool) (format : string) (writer : bool)
    (content : list (string * D)) : res (files D * string) :=
  let! ext := extension writer format in
  let! name' := if overwrite then Ok name else find_name fs path name (S (List.length fs)) name 1 in
  let file := path ++ name' ++ "." ++ ext in
  Ok (aset file content fs, file).
