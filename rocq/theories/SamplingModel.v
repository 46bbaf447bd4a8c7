(** * Model of do_mpc/sampling: SamplingPlanner, Sampler, DataHandler. *)
From Verif Require Import Base DataModel ProductModel.
From Coq Require Import Ascii.
Local Open Scope string_scope.

(** str(n).zfill(p). *)
Definition zfill (p n : nat) : string := zeros (p - String.length (decimal n)) ++ decimal n.

(** Values in a sampling case: those of sampling variables, and the id string. *)
Inductive sval (V : Type) := SUser (v : V) | SId (s : string).
Arguments SUser {V}. Arguments SId {V}.
(** A sampling case (python dict). *)
Definition case V := list (string * sval V).

(** ** SamplingPlanner (_samplingplanner.py) *)
Section Planner.
  Variable V : Type.
  Variable W : Type.      (* state of the random generators *)

  (** _samplingplanner.py:31-48.  A variable has an optional generator; generators are functions of a
      hidden state (simplification: they do not raise and do not call the planner). *)
  Record planner := mkPlanner {
    pl_vars : list (string * option (W -> V * W));
    pl_plan : list (case V);
    pl_prec : nat;
    pl_world : W }.

  Definition planner_init (w : W) : planner := mkPlanner [] [] 3 w.

  (** _samplingplanner.py:108-145 set_sampling_var. *)
  Definition set_sampling_var (p : planner) (name : string) (g : option (W -> V * W)) : planner :=
    mkPlanner (pl_vars p ++ [(name, g)])%list (pl_plan p) (pl_prec p) (pl_world p).

  (** _samplingplanner.py:71-106 set_param(id_precision=...). *)
  Definition set_id_precision (p : planner) (k : nat) : planner :=
    mkPlanner (pl_vars p) (pl_plan p) k (pl_world p).

  (** _samplingplanner.py:173-179: the keyword loop. *)
  Fixpoint take_kwargs (names : list string) (kw : list (string * V)) (tmp : case V) : res (case V) :=
    match kw with
    | [] => Ok tmp
    | (k, v) :: kw' => if existsb (String.eqb k) names then take_kwargs names kw' (aset k (SUser v) tmp) else Err ExcGeneric
    end.

  (** _samplingplanner.py:181-186: the augmentation loop. *)
  Fixpoint augment (vars : list (string * option (W -> V * W))) (keys : list string) (tmp : case V) (w : W) : res (case V) * W :=
    match vars with
    | [] => (Ok tmp, w)
    | (n, g) :: vars' =>
        if existsb (String.eqb n) keys then augment vars' keys tmp w
        else match g with
             | None => (Err ExcAssertion, w)
             | Some f => let (v, w') := f w in augment vars' keys (aset n (SUser v) tmp) w'
             end
    end.

  (** _samplingplanner.py:147-194 add_sampling_case. *)
  Definition add_sampling_case (p : planner) (kw : list (string * V)) : planner * res unit :=
    match take_kwargs (map fst (pl_vars p)) kw [] with
    | Err e => (p, Err e)
    | Ok tmp =>
        match augment (pl_vars p) (map fst kw) tmp (pl_world p) with
        | (Err e, w') => (mkPlanner (pl_vars p) (pl_plan p) (pl_prec p) w', Err e)
        | (Ok tmp', w') =>
            let id := zfill (pl_prec p) (List.length (pl_plan p)) in
            (mkPlanner (pl_vars p) (pl_plan p ++ [aset "id" (SId id) tmp'])%list (pl_prec p) w', Ok tt)
        end
    end.

  (** Repeated add_sampling_case, stopping at an exception (_samplingplanner.py:213-214, 247-251). *)
  Fixpoint add_cases (p : planner) (kws : list (list (string * V))) : planner * res unit :=
    match kws with
    | [] => (p, Ok tt)
    | kw :: kws' => match add_sampling_case p kw with
                    | (p', Ok _) => add_cases p' kws'
                    | (p', Err e) => (p', Err e)
                    end
    end.

  (** _samplingplanner.py:198-217 gen_sampling_plan. *)
  Definition gen_sampling_plan (p : planner) (n : nat) : planner * res unit :=
    if Nat.eqb n 0 then (p, Err ExcAssertion) else add_cases p (repeat [] n).

  (** _samplingplanner.py:219-253 product.  [None] is a keyword value that is not a list. *)
  Definition product (p : planner) (kw : list (string * option (list V))) : planner * res unit :=
    if negb (forallb (fun kv => match snd kv with Some _ => true | None => false end) kw) then (p, Err ExcValue)
    else if negb (forallb (fun kv => existsb (String.eqb (fst kv)) (map fst (pl_vars p))) kw) then (p, Err ExcValue)
    else add_cases p (map (combine (map fst kw))
                          (itertools_product (map (fun kv => match snd kv with Some l => l | None => [] end) kw))).
End Planner.
Arguments mkPlanner {V W}. Arguments pl_vars {V W}. Arguments pl_plan {V W}. Arguments pl_prec {V W}. Arguments pl_world {V W}.
Arguments planner_init {V W}. Arguments set_sampling_var {V W}. Arguments set_id_precision {V W}. Arguments take_kwargs {V}.
Arguments augment {V W}. Arguments add_sampling_case {V W}. Arguments add_cases {V W}. Arguments gen_sampling_plan {V W}.
Arguments product {V W}.

(** ** Files *)
(** str.replace('.pkl',''): non-overlapping, left to right; [skip] characters are still to be dropped. *)
Fixpoint strip_pkl (skip : nat) (s : string) : string :=
  match s with
  | EmptyString => EmptyString
  | String c r => match skip with
                  | S k => strip_pkl k r
                  | O => if prefix ".pkl" s then strip_pkl 3 r else String c (strip_pkl 0 r)
                  end
  end.
(** tools/__init__.py:36-39: the file save_pickle writes. *)
Definition pickle_target (filename : string) : string := strip_pkl 0 filename ++ ".pkl".

(** What a file holds: nothing useful yet (opened for writing, not completely written), or a result. *)
Inductive content (R : Type) := Partial | Whole (r : R).
Arguments Partial {R}. Arguments Whole {R}.

Inductive save_format := FPickle | FMat | FOther.

(** ** Sampler (_sampler.py) *)
Section Sampler.
  Variable V R : Type.

  (** _sampler.py:57-86 (configuration; data_dir, sample_name, save_format, overwrite, sample_function). *)
  Record sampler := mkSampler {
    sm_plan : list (case V);
    sm_dir : string; sm_name : string; sm_fmt : save_format; sm_overwrite : bool;
    sm_fun : option (case V -> res R) }.

  (** _sampler.py:173-184 _save_name ('{}_{}'.format then the extension; unbound for other formats);
      the id is a string. *)
  Definition save_name (s : sampler) (id : string) : res string :=
    let name := sm_name s ++ "_" ++ id in
    match sm_fmt s with
    | FPickle => Ok (name ++ ".pkl")
    | FMat => Ok (name ++ ".mat")
    | FOther => Err ExcUnbound
    end.

  (** The file _save writes (_sampler.py:187-195): save_pickle strips '.pkl', savemat takes the name. *)
  Definition write_target (s : sampler) (save_name : string) : string :=
    match sm_fmt s with
    | FPickle => pickle_target (sm_dir s ++ save_name)
    | _ => sm_dir s ++ save_name
    end.

  (** dict.pop('id'). *)
  Fixpoint adel (k : string) (l : case V) : case V :=
    match l with
    | [] => []
    | (k', a) :: l' => if String.eqb k k' then l' else (k', a) :: adel k l'
    end.

  (** One process working through a list of indices with sample_idx (_sampler.py:198-227), in atomic
      steps; sample_data (_sampler.py:230-242) is the process with the indices 0..n-1, and
      pool.map(sampler.sample_idx, ...) is several processes.  [TCall]: about to call the sample
      function; [TSave]: in _save, about to test for the file again; [TOpen]: about to open the file
      (which truncates it); [TWrite]: opened, content not yet written; [TComp]: about to append to
      completion_list; [TFail]: an exception was raised (the process stops). *)
  Inductive task :=
  | TIdle
  | TCall (i : nat) (name : string)
  | TSave (i : nat) (name : string) (r : R)
  | TOpen (i : nat) (name : string) (r : R)
  | TWrite (i : nat) (name : string) (r : R)
  | TComp (i : nat)
  | TFail (e : exn).

  Record proc := mkProc { pq : list Z; pt : task }.
  (** The file system, the processes, and the log of calls of the sample function (ghost). *)
  Record sys := mkSys { sfs : list (string * content R); sprocs : list proc; scalls : list nat }.

  (** _sampler.py:208-218: the checks and the existence test of sample_idx for index [idx]. *)
  Definition begin_sample (s : sampler) (fs : list (string * content R)) (idx : Z) : task :=
    match sm_fun s with
    | None => TFail ExcAssertion
    | Some _ =>
        if ((idx >=? 0) && (idx <=? Z.of_nat (List.length (sm_plan s))))%Z then
          match nth_error (sm_plan s) (Z.to_nat idx) with
          | None => TFail ExcIndex
          | Some c =>
              match alookup "id" c with
              | Some (SId id) =>
                  match save_name s id with
                  | Err e => TFail e
                  | Ok name => if negb (amem (sm_dir s ++ name) fs) || sm_overwrite s then TCall (Z.to_nat idx) name else TIdle
                  end
              | Some (SUser _) => TFail ExcType (* ids made by the planner are strings *)
              | None => TFail ExcKey
              end
          end
        else TFail ExcAssertion
    end.

  (** One step of a process: new files, new process, call logged. *)
  Definition pstep (s : sampler) (fs : list (string * content R)) (p : proc) : list (string * content R) * proc * list nat :=
    match pt p with
    | TIdle => match pq p with
               | [] => (fs, p, [])
               | i :: q => (fs, mkProc q (begin_sample s fs i), [])
               end
    | TCall i name =>                                        (* _sampler.py:220 *)
        match sm_fun s, nth_error (sm_plan s) i with
        | Some f, Some c => (fs, mkProc (pq p) match f (adel "id" c) with Ok r => TSave i name r | Err e => TFail e end, [i])
        | _, _ => (fs, mkProc (pq p) (TFail ExcType), [])
        end
    | TSave i name r =>                                      (* _sampler.py:191 *)
        (fs, mkProc (pq p) (if negb (amem (sm_dir s ++ name) fs) || sm_overwrite s then TOpen i name r else TComp i), [])
    | TOpen i name r => (aset (write_target s name) Partial fs, mkProc (pq p) (TWrite i name r), [])
    | TWrite i name r => (aset (write_target s name) (Whole r) fs, mkProc (pq p) (TComp i), [])
    | TComp i => (fs, mkProc (pq p) TIdle, [])               (* _sampler.py:224 *)
    | TFail e => (fs, p, [])
    end.

  Fixpoint update_nth {A} (n : nat) (a : A) (l : list A) : list A :=
    match l, n with
    | [], _ => []
    | _ :: l', O => a :: l'
    | x :: l', S n' => x :: update_nth n' a l'
    end.

  (** The scheduler picks process [k]. *)
  Definition sstep (s : sampler) (st : sys) (k : nat) : sys :=
    match nth_error (sprocs st) k with
    | None => st
    | Some p => let '(fs', p', c) := pstep s (sfs st) p in
                mkSys fs' (update_nth k p' (sprocs st)) (scalls st ++ c)%list
    end.
  Definition srun (s : sampler) (st : sys) (sched : list nat) : sys := fold_left (sstep s) sched st.

  Definition start (fs : list (string * content R)) (queues : list (list Z)) : sys :=
    mkSys fs (map (fun q => mkProc q TIdle) queues) [].
  (** sample_data: one process, all indices in order (_sampler.py:241-242). *)
  Definition all_indices (s : sampler) : list Z := map Z.of_nat (seq 0 (List.length (sm_plan s))).

  (** One call sample_idx(idx), run to its end (at most six steps): the files and the exception, if any. *)
  Definition sample_idx (s : sampler) (fs : list (string * content R)) (idx : Z) : list (string * content R) * res unit :=
    let st := srun s (start fs [[idx]]) (repeat 0 6) in
    (sfs st, match sprocs st with
             | [p] => match pt p with TFail e => Err e | _ => Ok tt end
             | _ => Ok tt
             end).
  (** A sequence of calls, stopping at an exception; sample_data is the case [all_indices] (_sampler.py:241-242). *)
  Fixpoint sample_seq (s : sampler) (fs : list (string * content R)) (idxs : list Z) : list (string * content R) * res unit :=
    match idxs with
    | [] => (fs, Ok tt)
    | i :: idxs' => match sample_idx s fs i with
                    | (fs', Ok _) => sample_seq s fs' idxs'
                    | (fs', Err e) => (fs', Err e)
                    end
    end.
End Sampler.
Arguments mkSampler {V R}. Arguments sm_plan {V R}. Arguments sm_dir {V R}. Arguments sm_name {V R}. Arguments sm_fmt {V R}.
Arguments sm_overwrite {V R}. Arguments sm_fun {V R}. Arguments save_name {V R}. Arguments write_target {V R}. Arguments adel {V}.
Arguments TIdle {R}. Arguments TCall {R}. Arguments TSave {R}. Arguments TOpen {R}. Arguments TWrite {R}. Arguments TComp {R}. Arguments TFail {R}.
Arguments mkProc {R}. Arguments pq {R}. Arguments pt {R}. Arguments mkSys {R}. Arguments sfs {R}. Arguments sprocs {R}. Arguments scalls {R}.
Arguments begin_sample {V R}. Arguments pstep {V R}. Arguments sstep {V R}. Arguments srun {V R}. Arguments start {R}.
Arguments all_indices {V R}. Arguments sample_idx {V R}. Arguments sample_seq {V R}.

(** ** DataHandler (_datahandler.py) *)
Section Handler.
  Variable V R O : Type.
  Variable of_mat : R -> R.      (* scipy: what loadmat returns for a saved result *)

  (** Post-processing functions: of the result, of case and result, or with another number of
      arguments (_datahandler.py:157-166, 350-355). *)
  Inductive ppfun := PP1 (f : R -> O) | PP2 (f : case V -> R -> O) | PPn.

  (** _datahandler.py:72-96. *)
  Record handler := mkHandler {
    dh_plan : list (case V);
    dh_dir : string; dh_name : string; dh_fmt : save_format;
    dh_pp : list (string * ppfun);          (* flag set_post_processing <-> non-empty *)
    dh_cache : list (string * option R) }.

  (** An entry of a returned sample: a case value, a post-processed result, a raw result, or None. *)
  Inductive rval := RCase (v : sval V) | RPost (o : O) | RRaw (r : option R) | RNone.
  Definition row := list (string * rval).

  (** _datahandler.py:243-262 _load.  A missing file gives None; a truncated file makes pickle raise. *)
  Definition load_name (h : handler) (id : string) : res string :=
    let name := dh_name h ++ "_" ++ id in
    match dh_fmt h with
    | FPickle => Ok (dh_dir h ++ name ++ ".pkl")
    | FMat => Ok (dh_dir h ++ name ++ ".mat")
    | FOther => Err ExcUnbound
    end.
  Definition dh_load (h : handler) (fs : list (string * content R)) (id : string) : res (option R) :=
    let! f := load_name h id in
    match alookup f fs with
    | None => Ok None
    | Some Partial => Err ExcGeneric
    | Some (Whole r) => Ok (Some (match dh_fmt h with FMat => of_mat r | _ => r end))
    end.

  Definition with_cache (h : handler) (c : list (string * option R)) : handler :=
    mkHandler (dh_plan h) (dh_dir h) (dh_name h) (dh_fmt h) (dh_pp h) c.

  (** _datahandler.py:136-147 _lazy_loading. *)
  Definition lazy_loading (h : handler) (fs : list (string * content R)) (c : case V) : res (handler * option R) :=
    match alookup "id" c with
    | Some (SId id) =>
        match alookup id (dh_cache h) with
        | Some r => Ok (h, r)
        | None => let! r := dh_load h fs id in Ok (with_cache h (dh_cache h ++ [(id, r)])%list, r)
        end
    | _ => Err ExcKey
    end.

  (** _datahandler.py:150-169 _post_process_single. *)
  Definition post_one (c : case V) (r : option R) (out : row) (kf : string * ppfun) : row :=
    match r with
    | None => aset (fst kf) RNone out
    | Some r => match snd kf with
                | PP1 f => aset (fst kf) (RPost (f r)) out
                | PP2 f => aset (fst kf) (RPost (f c r)) out
                | PPn => out
                end
    end.
  Definition post_process (h : handler) (c : case V) (r : option R) : row :=
    let base := map (fun kv => (fst kv, RCase (snd kv))) c in
    match dh_pp h with
    | [] => aset "res" (RRaw r) base
    | pp => fold_left (post_one c r) pp base
    end.

  (** _datahandler.py:125-133: the loop of __getitem__ over the selected samples. *)
  Fixpoint get_rows (h : handler) (fs : list (string * content R)) (cs : list (case V)) : handler * res (list row) :=
    match cs with
    | [] => (h, Ok [])
    | c :: cs' =>
        match lazy_loading h fs c with
        | Err e => (h, Err e)
        | Ok (h', r) =>
            match get_rows h' fs cs' with
            | (h'', Ok rows) => (h'', Ok (post_process h c r :: rows))
            | (h'', Err e) => (h'', Err e)
            end
        end
    end.

  (** python list indexing by an int and by a slice (PySlice_AdjustIndices). *)
  Inductive pyind := IInt (i : Z) | ISlice (start stop step : option Z) | IOther.
  Definition adjust (n step : Z) (v : Z) : Z :=
    if (v <? 0)%Z
    then (let v' := v + n in if v' <? 0 then (if step <? 0 then -1 else 0) else v')%Z
    else (if n <=? v then (if step <? 0 then n - 1 else n) else v)%Z.
  Definition slice_positions (start stop step : option Z) (n : Z) : res (list Z) :=
    let st := match step with Some s => s | None => 1%Z end in
    if (st =? 0)%Z then Err ExcValue else
    let a := match start with Some v => adjust n st v | None => if (st <? 0)%Z then (n - 1)%Z else 0%Z end in
    let b := match stop with Some v => adjust n st v | None => if (st <? 0)%Z then (-1)%Z else n end in
    let len := if (st <? 0)%Z then (if (b <? a)%Z then ((a - b - 1) / (- st) + 1)%Z else 0%Z)
               else (if (a <? b)%Z then ((b - a - 1) / st + 1)%Z else 0%Z) in
    Ok (map (fun k => (a + Z.of_nat k * st)%Z) (seq 0 (Z.to_nat len))).
  Definition py_nth {A} (l : list A) (i : Z) : res A :=
    let n := Z.of_nat (List.length l) in
    let i' := (if i <? 0 then n + i else i)%Z in
    if ((i' <? 0) || (n <=? i'))%Z then Err ExcIndex
    else match nth_error l (Z.to_nat i') with Some a => Ok a | None => Err ExcIndex end.
  (** _datahandler.py:112-123: a tuple or a list is passed to list indexing, which raises TypeError;
      another type raises Exception (both represented by IOther -> ExcType). *)
  Definition select {A} (l : list A) (ind : pyind) : res (list A) :=
    match ind with
    | IInt i => let! a := py_nth l i in Ok [a]
    | ISlice a b s => let! ps := slice_positions a b s (Z.of_nat (List.length l)) in mapM (py_nth l) ps
    | IOther => Err ExcType
    end.

  (** _datahandler.py:108-133 __getitem__. *)
  Definition dh_getitem (h : handler) (fs : list (string * content R)) (ind : pyind) : handler * res (list row) :=
    match select (dh_plan h) ind with
    | Err e => (h, Err e)
    | Ok cs => get_rows h fs cs
    end.

  (** What a user filter returns: a boolean, or another python value (with its truth value); only a
      value equal to True selects the sample (== True, _datahandler.py:232,237). *)
  Inductive pyret := PyBool (b : bool) | PyOther (truthy : bool).
  Definition eq_true (r : pyret) : bool := match r with PyBool b => b | PyOther _ => false end.

  (** A filter: the names in co_varnames and the function of the values passed (_datahandler.py:216-228). *)
  Record filt (A : Type) := mkFilt { f_names : list string; f_fun : list A -> pyret }.
  Definition call_filter {A} (f : option (filt A)) (row : list (string * A)) : res bool :=
    match f with
    | None => Ok true
    | Some f => let! args := mapM (fun n => match alookup n row with Some a => Ok a | None => Err ExcKey end) (f_names A f) in
                Ok (eq_true (f_fun A f args))
    end.

  (** _datahandler.py:230-240: the loop of filter. *)
  Fixpoint filter_rows (h : handler) (fs : list (string * content R)) (fin : option (filt (sval V))) (fout : option (filt rval))
           (cs : list (case V)) : handler * res (list row) :=
    match cs with
    | [] => (h, Ok [])
    | c :: cs' =>
        match call_filter fin c with
        | Err e => (h, Err e)
        | Ok false => filter_rows h fs fin fout cs'
        | Ok true =>
            match lazy_loading h fs c with
            | Err e => (h, Err e)
            | Ok (h', r) =>
                let out := post_process h c r in
                match call_filter fout out with
                | Err e => (h', Err e)
                | Ok keep => match filter_rows h' fs fin fout cs' with
                             | (h'', Ok rows) => (h'', Ok (if keep then out :: rows else rows))
                             | (h'', Err e) => (h'', Err e)
                             end
                end
            end
        end
    end.
  (** _datahandler.py:172-240 filter. *)
  Definition dh_filter (h : handler) (fs : list (string * content R)) (fin : option (filt (sval V))) (fout : option (filt rval))
    : handler * res (list row) := filter_rows h fs fin fout (dh_plan h).

  (** _datahandler.py:287-355 set_post_processing. *)
  Definition set_post_processing (h : handler) (name : string) (f : ppfun) : handler :=
    mkHandler (dh_plan h) (dh_dir h) (dh_name h) (dh_fmt h) (aset name f (dh_pp h)) (dh_cache h).
  (** _datahandler.py:265-284 set_param (data_dir, sample_name, save_format): the cache is kept. *)
  Definition dh_set_param (h : handler) (dir name : string) (fmt : save_format) : handler :=
    mkHandler (dh_plan h) dir name fmt (dh_pp h) (dh_cache h).
End Handler.
Arguments PP1 {V R O}. Arguments PP2 {V R O}. Arguments PPn {V R O}.
Arguments mkHandler {V R O}. Arguments dh_plan {V R O}. Arguments dh_dir {V R O}. Arguments dh_name {V R O}. Arguments dh_fmt {V R O}.
Arguments dh_pp {V R O}. Arguments dh_cache {V R O}.
Arguments RCase {V R O}. Arguments RPost {V R O}. Arguments RRaw {V R O}. Arguments RNone {V R O}.
Arguments load_name {V R O}. Arguments dh_load {V R O}. Arguments with_cache {V R O}. Arguments lazy_loading {V R O}.
Arguments post_one {V R O}. Arguments post_process {V R O}. Arguments get_rows {V R O}. Arguments dh_getitem {V R O}.
Arguments filter_rows {V R O}. Arguments dh_filter {V R O}. Arguments set_post_processing {V R O}. Arguments dh_set_param {V R O}.
Arguments mkFilt {A}. Arguments f_names {A}. Arguments f_fun {A}.
