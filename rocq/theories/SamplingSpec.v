(** * Specification for sampling: histories of planner calls; what sampling must leave on disk; what
    the data handler must return. *)
From Verif Require Import Base DataModel SamplingModel.

(** Calls on a planner. *)
Inductive pop (V W : Type) :=
| PVar (name : string) (g : option (W -> V * W))
| PPrec (k : nat)
| PAdd (kw : list (string * V))
| PGen (n : nat)
| PProduct (kw : list (string * option (list V))).
Arguments PVar {V W}. Arguments PPrec {V W}. Arguments PAdd {V W}. Arguments PGen {V W}. Arguments PProduct {V W}.

Definition pcall {V W} (p : planner V W) (o : pop V W) : planner V W * res unit :=
  match o with
  | PVar n g => (set_sampling_var p n g, Ok tt)
  | PPrec k => (set_id_precision p k, Ok tt)
  | PAdd kw => add_sampling_case p kw
  | PGen n => gen_sampling_plan p n
  | PProduct kw => product p kw
  end.
Definition prun {V W} (w : W) (h : list (pop V W)) : planner V W :=
  fold_left (fun p o => fst (pcall p o)) h (planner_init w).

(** Variables declared in a history, with their generators. *)
Definition declared {V W} (h : list (pop V W)) : list (string * option (W -> V * W)) :=
  flat_map (fun o => match o with PVar n g => [(n, g)] | _ => [] end) h.

(** An id is the decimal number of the case, padded. *)
Definition has_number {V} (c : case V) (k : nat) : Prop := exists prec, alookup "id" c = Some (SId (zfill prec k)).

(** A variable has a value in a case. *)
Definition assigns {V} (c : case V) (n : string) : Prop := exists v, alookup n c = Some (SUser v).

(** Files of a plan. *)
Definition file_of {V R} (s : sampler V R) (c : case V) (file : string) : Prop :=
  exists id name, alookup "id" c = Some (SId id) /\ save_name s id = Ok name /\ file = (sm_dir s ++ name)%string.

(** The text contains '.pkl'. *)
Definition contains_pkl (s : string) : Prop := exists a b, s = (a ++ ".pkl" ++ b)%string.

(** The conditions under which sampling is claimed to work: distinct ids, a sample function that
      returns, a supported format, and no '.pkl' in directory and name (see C31_pkl_in_path_refuted). *)
Record good_sampler {V R} (s : sampler V R) (f : case V -> R) : Prop := {
  gs_fun : exists g, sm_fun s = Some g /\ forall c, In c (sm_plan s) -> g (adel "id" c) = Ok (f (adel "id" c));
  gs_fmt : sm_fmt s <> FOther;
  gs_ids : forall c, In c (sm_plan s) -> exists id, alookup "id" c = Some (SId id);
  gs_inj : forall i j ci cj, nth_error (sm_plan s) i = Some ci -> nth_error (sm_plan s) j = Some cj ->
             alookup "id" ci = alookup "id" cj -> i = j;
  gs_pkl : forall c id, In c (sm_plan s) -> alookup "id" c = Some (SId id) -> ~ contains_pkl (sm_dir s ++ sm_name s ++ "_" ++ id)%string }.

(** A process has finished normally. *)
Definition finished {R} (p : proc R) : Prop := pq p = [] /\ pt p = TIdle.
(** A process is between opening and completely writing a file. *)
Definition writing {R} (p : proc R) : bool := match pt p with TWrite _ _ _ => true | _ => false end.

(** The result file each case must have at the end: the old one if it existed and overwriting is
    off, else the value of the sample function. *)
Definition expected {V R} (s : sampler V R) (f : case V -> R) (fs0 : list (string * content R)) (c : case V) (file : string) : content R :=
  match alookup file fs0 with
  | Some old => if sm_overwrite s then Whole (f (adel "id" c)) else old
  | None => Whole (f (adel "id" c))
  end.

(** Indices of the plan; every index appears. *)
Definition valid_indices {V R} (s : sampler V R) (idxs : list Z) : Prop :=
  forall z, In z idxs -> (0 <= z < Z.of_nat (List.length (sm_plan s)))%Z.
Definition covers {V R} (s : sampler V R) (idxs : list Z) : Prop :=
  forall i, i < List.length (sm_plan s) -> In (Z.of_nat i) idxs.
(** No file of the plan is truncated. *)
Definition clean {V R} (s : sampler V R) (fs : list (string * content R)) : Prop :=
  forall c file, In c (sm_plan s) -> file_of s c file -> alookup file fs <> Some Partial.
(** A run of any processes, stopped at an arbitrary point at which no process is in the middle of
    writing a file. *)
Definition interrupted {V R} (s : sampler V R) (fs fs' : list (string * content R)) : Prop :=
  exists queues sched, valid_indices s (List.concat queues)
    /\ let st := srun s (start fs queues) sched in existsb writing (sprocs st) = false /\ sfs st = fs'.
(** Any number of interrupted runs, one after the other. *)
Inductive interruptions {V R} (s : sampler V R) : list (string * content R) -> list (string * content R) -> Prop :=
| int_none fs : interruptions s fs fs
| int_more fs fs' fs'' : interruptions s fs fs' -> interrupted s fs' fs'' -> interruptions s fs fs''.
(** Every process gets enough turns to work through its indices. *)
Definition enough_turns (queues : list (list Z)) (sched : list nat) : Prop :=
  forall k q, nth_error queues k = Some q -> 6 * List.length q <= count_occ Nat.eq_dec sched k.

(** ** Data handler *)
Section HSpec.
  Context {V R O : Type}.
  Variable of_mat : R -> R.
  (** The entries a returned sample must have: all values of the case, plus for each registered
      function its value on the result (None without result), or the raw result under "res" if no
      function is registered. *)
  Definition row_ok (pp : list (string * ppfun V R O)) (c : case V) (r : option R) (row : list (string * rval V R O)) : Prop :=
    forall k, alookup k row =
      match pp with
      | [] => if String.eqb k "res" then Some (RRaw r) else option_map RCase (alookup k c)
      | _ => match alookup k pp, r with
             | Some _, None => Some RNone
             | Some (PP1 f), Some x => Some (RPost (f x))
             | Some (PP2 f), Some x => Some (RPost (f c x))
             | Some PPn, Some _ => option_map RCase (alookup k c)
             | None, _ => option_map RCase (alookup k c)
             end
      end.

  (** Calls on a handler, each made while the disk is in a given state. *)
  Inductive hop :=
  | HGet (ind : pyind)
  | HFilter (fin : option (filt (sval V))) (fout : option (filt (rval V R O)))
  | HPost (name : string) (f : ppfun V R O)
  | HParam (dir name : string) (fmt : save_format).
  Definition hcall (h : handler V R O) (fs : list (string * content R)) (o : hop) : handler V R O :=
    match o with
    | HGet ind => fst (dh_getitem of_mat h fs ind)
    | HFilter fin fout => fst (dh_filter of_mat h fs fin fout)
    | HPost n f => set_post_processing h n f
    | HParam d n fm => dh_set_param h d n fm
    end.
  Fixpoint hrun (h : handler V R O) (hist : list (list (string * content R) * hop)) : handler V R O :=
    match hist with
    | [] => h
    | (fs, o) :: hist' => hrun (hcall h fs o) hist'
    end.
  (** The configurations (handler and disk) in which the calls of a history are made. *)
  Fixpoint contexts (h : handler V R O) (hist : list (list (string * content R) * hop)) : list (handler V R O * list (string * content R)) :=
    match hist with
    | [] => []
    | (fs, o) :: hist' => (h, fs) :: contexts (hcall h fs o) hist'
    end.
  (** A new handler. *)
  Definition new_handler (plan : list (case V)) (dir name : string) (fmt : save_format) : handler V R O :=
    mkHandler plan dir name fmt [] [].

  (** The file in which the result of case [id] is expected, and the result it holds: the value that was
      saved (through scipy for .mat files), or None if there is no such file. *)
  Definition result_file (h : handler V R O) (id ext : string) : string :=
    (dh_dir h ++ dh_name h ++ "_" ++ id ++ ext)%string.
  Inductive stored (of_mat : R -> R) (h : handler V R O) (fs : list (string * content R)) (id : string) : option R -> Prop :=
  | stored_pkl r : dh_fmt h = FPickle -> alookup (result_file h id ".pkl") fs = Some (Whole r) -> stored of_mat h fs id (Some r)
  | stored_mat r : dh_fmt h = FMat -> alookup (result_file h id ".mat") fs = Some (Whole r) -> stored of_mat h fs id (Some (of_mat r))
  | missing_pkl : dh_fmt h = FPickle -> alookup (result_file h id ".pkl") fs = None -> stored of_mat h fs id None
  | missing_mat : dh_fmt h = FMat -> alookup (result_file h id ".mat") fs = None -> stored of_mat h fs id None.

  (** A filter holds on a row: all the values it names exist and it returns True. *)
  Definition holds {A} (f : option (filt A)) (row : list (string * A)) : Prop :=
    match f with
    | None => True
    | Some f => exists args, Forall2 (fun n a => alookup n row = Some a) (f_names f) args /\ f_fun f args = PyBool true
    end.
  (** A filter can be evaluated on a row (whatever it returns). *)
  Definition evaluates {A} (f : option (filt A)) (row : list (string * A)) : Prop :=
    match f with
    | None => True
    | Some f => exists args, Forall2 (fun n a => alookup n row = Some a) (f_names f) args
    end.
End HSpec.
Arguments hop : clear implicits.

(** Python's slices of a list of length n (Python language reference, sequence types): a negative
    start or stop counts from the end; then both are limited to 0..n for a positive step and to
    -1..n-1 for a negative one; missing, they stand for the whole list in the direction of the step. *)
Definition from_end (n v : Z) : Z := if (v <? 0)%Z then (n + v)%Z else v.
Definition limit (n step v : Z) : Z :=
  if (0 <? step)%Z then Z.max 0 (Z.min n v) else Z.max (-1) (Z.min (n - 1) v).
Definition slice_start (n step : Z) (o : option Z) : Z :=
  match o with Some v => limit n step (from_end n v) | None => if (0 <? step)%Z then 0%Z else (n - 1)%Z end.
Definition slice_stop (n step : Z) (o : option Z) : Z :=
  match o with Some v => limit n step (from_end n v) | None => if (0 <? step)%Z then n else (-1)%Z end.
(** Position p belongs to the slice: start + k step for some k >= 0, before the stop. *)
Definition in_slice (n : Z) (start stop : option Z) (step p : Z) : Prop :=
  (exists k, 0 <= k /\ p = slice_start n step start + k * step)%Z
  /\ (if (0 <? step)%Z then p < slice_stop n step stop else slice_stop n step stop < p)%Z.
