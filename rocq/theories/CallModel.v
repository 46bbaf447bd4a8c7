(** * Model of Sampler.set_sample_function and of the call of the sample function (_sampler.py:133-170, 212-220). *)
From Verif Require Import Base DataModel SamplingModel.
Local Open Scope string_scope.

(** The signature of a python function: names of positional-only parameters, of ordinary
    (positional-or-keyword) parameters and of keyword-only parameters, each with a flag telling whether it has a default
    value, and whether there is a **kwargs parameter ( *args plays no role in a call by keywords). *)
Record pysig := mkSig { sg_posonly : list (string * bool); sg_args : list (string * bool); sg_kwonly : list (string * bool); sg_varkw : bool }.

(** What the user may pass: a function (types.FunctionType), a builtin (types.BuiltinFunctionType; some of
    them have no signature that inspect can read), or another callable (method, functools.partial,
    instance with __call__). *)
Inductive pyfun := PyDef (s : pysig) | PyBuiltin (s : option pysig) | PyCallable (s : pysig).

(** _sampler.py:61-62: sampling_vars, the keys of the first case ([] has no first case). *)
Definition sampler_vars {V} (plan : list (case V)) : res (list string) :=
  match plan with [] => Err ExcIndex | c :: _ => Ok (map fst c) end.

(** inspect.getfullargspec(f).args: the positional-only and the ordinary parameters. *)
Definition argspec_args (s : pysig) : list string := map fst (sg_posonly s ++ sg_args s).

(** _sampler.py:164-166: the set difference must be empty. *)
Definition check_args (vars : list string) (s : pysig) : res pysig :=
  if forallb (fun a => existsb (String.eqb a) vars) (argspec_args s) then Ok s else Err ExcAssertion.
(** _sampler.py:133-170 set_sample_function (the function that is stored, or the exception). *)
Definition set_sample_function (vars : list string) (f : pyfun) : res pysig :=
  match f with
  | PyCallable _ => Err ExcAssertion
  | PyBuiltin None => Err ExcType
  | PyDef s | PyBuiltin (Some s) => check_args vars s
  end.

(** ** Python: the call f( **kw ). *)
(** The value of a parameter: passed, or its default. *)
Inductive pyarg (A : Type) := Given (a : A) | Default.
Arguments Given {A}. Arguments Default {A}.

Definition bind_param {A} (kw : list (string * A)) (p : string * bool) : res (string * pyarg A) :=
  match alookup (fst p) kw with
  | Some a => Ok (fst p, Given a)
  | None => if snd p then Ok (fst p, Default) else Err ExcType
  end.
Definition named (s : pysig) : list string := map fst (sg_args s ++ sg_kwonly s).
(** The parameters with their values, and the content of **kwargs; TypeError if a positional-only
    parameter has no default, if a keyword is unknown, or if a required parameter is missing. *)
Definition py_call {A} (s : pysig) (kw : list (string * A)) : res (list (string * pyarg A) * list (string * A)) :=
  let extra := filter (fun kv => negb (existsb (String.eqb (fst kv)) (named s))) kw in
  if negb (forallb snd (sg_posonly s)) then Err ExcType
  else if negb (sg_varkw s) && negb (match extra with [] => true | _ => false end) then Err ExcType
  else let! b := mapM (bind_param kw) (sg_args s ++ sg_kwonly s) in
       Ok ((map (fun p => (fst p, Default)) (sg_posonly s) ++ b)%list, extra).

(** _sampler.py:220: self.sample_function( **sample_i ), for a function with signature [s] and a given body. *)
Definition sample_function {V R} (s : pysig) (body : list (string * pyarg (sval V)) -> list (string * sval V) -> res R) (kw : case V) : res R :=
  let! eb := py_call s kw in body (fst eb) (snd eb).
