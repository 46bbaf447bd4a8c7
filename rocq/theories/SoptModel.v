(** * Model of the solver options and of the solver object of an MPC / MHE
    (controller/_controllersettings.py, controller/_mpc.py, estimator/_estimatorsettings.py, estimator/_mhe.py,
    optimizer.py:667-729, data.py:167-171).

    The options are a python dictionary, which is a mutable object that several names may refer to: [w_dict] is the
    heap of the dictionaries, and an object's settings hold the number of a dictionary.  Everything else about an
    optimizer object is left out, except the problem (an arbitrary number standing for the whole NLP) that setup
    builds.  casadi.nlpsol copies the options it is given (they become a C++ map) and keeps the NLP, so a solver is
    the pair of both; nlpsol rejecting an unknown option is not modelled. *)
From Verif Require Import Base DataModel.
Local Open Scope string_scope.

Definition dict := list (string * string).

(** What the calls of this model touch of an MPC or MHE object. *)
Record sobj := mkSobj {
  o_opts : nat;                        (* settings.nlpsol_opts: which dictionary *)
  o_setup : bool;                      (* flags['setup'] *)
  o_solver : option (nat * dict);      (* self.S: the NLP it solves and the options it was given *)
  o_meta : option nat                  (* data.meta_data['nlpsol_opts']: which dictionary *)
}.

Record world := mkW {
  w_ndict : nat; w_dict : nat -> dict;            (* dictionaries created so far *)
  w_nobj : nat; w_obj : nat -> sobj;              (* MPC and MHE objects created so far *)
  w_src : string -> option nat;                   (* generated C files, by name: the problem they are the code of *)
  w_lib : string -> option nat                    (* compiled libraries, by name *)
}.

(** The calls of a user. *)
Inductive sevent :=
| ENew (given : option nat)                  (* MPC(model, settings=...) with the dictionary inside; MHE(model) *)
| EDict                                      (* the user creates a dictionary *)
| EWrite (d : nat) (k v : string)            (* d[k] = v, also through mpc.settings.nlpsol_opts[k] = v *)
| EParam (i d : nat)                         (* set_param(nlpsol_opts=d) *)
| EAssign (i d : nat)                        (* settings.nlpsol_opts = d *)
| EQuiet (i : nat)                           (* settings.supress_ipopt_output() *)
| ELinear (i : nat) (name : string)          (* settings.set_linear_solver(name) *)
| ESetup (i p : nat)                         (* setup(), the NLP being p *)
| ECompile (i : nat) (overwrite : bool) (cname libname : string) (gcc_ok : bool).  (* compile_nlp(...) *)

Definition upd_fun {A} (n : nat) (a : A) (f : nat -> A) : nat -> A := fun m => if Nat.eqb m n then a else f m.
Definition upd_str {A} (n : string) (a : A) (f : string -> A) : string -> A := fun m => if String.eqb m n then a else f m.

Definition set_dict (d : nat) (x : dict) (w : world) : world :=
  mkW (w_ndict w) (upd_fun d x (w_dict w)) (w_nobj w) (w_obj w) (w_src w) (w_lib w).
Definition set_obj (i : nat) (o : sobj) (w : world) : world :=
  mkW (w_ndict w) (w_dict w) (w_nobj w) (upd_fun i o (w_obj w)) (w_src w) (w_lib w).

(** _controllersettings.py:156, _estimatorsettings.py:131. *)
Definition quiet_opts : list (string * string) :=
  [("ipopt.print_level", "0"); ("ipopt.sb", "yes"); ("print_time", "0")].
(** dict.update of python. *)
Definition dict_update (d : dict) (kvs : list (string * string)) : dict :=
  fold_left (fun d kv => aset (fst kv) (snd kv) d) kvs d.

(** MPC.__init__ _mpc.py:143-169 (the argument settings is not used: self._settings = MPCSettings()),
    MHE.__init__ _mhe.py:161; nlpsol_opts is a new dictionary (_controllersettings.py:138,
    _estimatorsettings.py:113: field(default_factory=dict)). *)
Definition new_obj (given : option nat) (w : world) : world :=
  mkW (S (w_ndict w)) (upd_fun (w_ndict w) [] (w_dict w))
      (S (w_nobj w)) (upd_fun (w_nobj w) (mkSobj (w_ndict w) false None None) (w_obj w)) (w_src w) (w_lib w).

(** set_param _mpc.py:508-514, _mhe.py:477-483 for the key nlpsol_opts. *)
Definition set_param_opts (i d : nat) (w : world) : world :=
  let o := w_obj w i in
  if o_setup o then w else set_obj i (mkSobj d (o_setup o) (o_solver o) (o_meta o)) w.

(** settings.nlpsol_opts = d: attribute of a plain dataclass (_controllersettings.py:63-138, _estimatorsettings.py:48-113). *)
Definition assign_opts (i d : nat) (w : world) : world :=
  let o := w_obj w i in set_obj i (mkSobj d (o_setup o) (o_solver o) (o_meta o)) w.

(** supress_ipopt_output _controllersettings.py:151-157, _estimatorsettings.py:126-132. *)
Definition supress_ipopt_output (i : nat) (w : world) : world :=
  let d := o_opts (w_obj w i) in set_dict d (dict_update (w_dict w d) quiet_opts) w.

(** set_linear_solver _controllersettings.py:159-174, _estimatorsettings.py:134-149. *)
Definition set_linear_solver (i : nat) (name : string) (w : world) : world :=
  let d := o_opts (w_obj w i) in set_dict d (aset "ipopt.linear_solver" name (w_dict w d)) w.

(** The end of setup, _mpc.py:1291-1309 and _mhe.py:1217-1233: the local dictionary with the defaults is lost
    (dict.update returns None), the solver is built from settings.nlpsol_opts; set_meta (data.py:167-171) stores
    the value of every setting, here the reference to the dictionary. *)
Definition setup_solver (i p : nat) (w : world) : world :=
  let o := w_obj w i in
  set_obj i (mkSobj (o_opts o) true (Some (p, w_dict w (o_opts o))) (Some (o_opts o))) w.

(** compile_nlp optimizer.py:709-729 on a supported platform, with the default compiler command, for names without
    characters special to the shell: generate_dependencies writes the code of the current solver's problem to
    [cname]; gcc ([gcc_ok] tells whether it succeeds; its return code is not looked at) makes the library from it;
    nlpsol then loads the library with the options of the settings, or raises when there is none.  A library that
    is already loaded is not affected when its file is replaced. *)
Definition compile_nlp (i : nat) (overwrite : bool) (cname libname : string) (gcc_ok : bool) (w : world) : world :=
  let o := w_obj w i in
  if negb (o_setup o) then w
  else
    let w1 :=
      if overwrite || match w_lib w libname with None => true | Some _ => false end then
        let src := upd_str cname (option_map fst (o_solver o)) (w_src w) in
        mkW (w_ndict w) (w_dict w) (w_nobj w) (w_obj w) src
            (if gcc_ok then upd_str libname (src cname) (w_lib w) else w_lib w)
      else w in
    match w_lib w1 libname with
    | None => w1
    | Some p => set_obj i (mkSobj (o_opts o) (o_setup o) (Some (p, w_dict w1 (o_opts o))) (o_meta o)) w1
    end.

(** One call; a call about an object or a dictionary that does not exist cannot be written by a user and does nothing. *)
Definition sstep (w : world) (e : sevent) : world :=
  match e with
  | ENew g => new_obj g w
  | EDict => mkW (S (w_ndict w)) (upd_fun (w_ndict w) [] (w_dict w)) (w_nobj w) (w_obj w) (w_src w) (w_lib w)
  | EWrite d k v => if Nat.ltb d (w_ndict w) then set_dict d (aset k v (w_dict w d)) w else w
  | EParam i d => if Nat.ltb i (w_nobj w) && Nat.ltb d (w_ndict w) then set_param_opts i d w else w
  | EAssign i d => if Nat.ltb i (w_nobj w) && Nat.ltb d (w_ndict w) then assign_opts i d w else w
  | EQuiet i => if Nat.ltb i (w_nobj w) then supress_ipopt_output i w else w
  | ELinear i n => if Nat.ltb i (w_nobj w) then set_linear_solver i n w else w
  | ESetup i p => if Nat.ltb i (w_nobj w) then setup_solver i p w else w
  | ECompile i ow c l g => if Nat.ltb i (w_nobj w) then compile_nlp i ow c l g w else w
  end.

(** A python process started on a disk. *)
Definition start (src lib : string -> option nat) : world :=
  mkW 0 (fun _ => []) 0 (fun _ => mkSobj 0 false None None) src lib.
Definition srun (w : world) (h : list sevent) : world := fold_left sstep h w.

(** A sequence of python processes on one disk: the disk that is left. *)
Definition session (disk : (string -> option nat) * (string -> option nat)) (h : list sevent)
  : (string -> option nat) * (string -> option nat) :=
  let w := srun (start (fst disk) (snd disk)) h in (w_src w, w_lib w).
Definition sessions (hs : list (list sevent)) : (string -> option nat) * (string -> option nat) :=
  fold_left session hs (fun _ => None, fun _ => None).
