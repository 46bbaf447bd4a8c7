(** * Model of the symbolic side of do_mpc/model/_model.py: which CasADi symbols the expressions of a model
    mention, what setup does with them, what the functions built by setup compute, and pickling.

    MdlModel.v gives the declaration protocol for an arbitrary type of scalar expressions; here that type
    is instantiated with expression trees over symbols.  A symbol is identified by the space it belongs to
    (kind of variable, process noise, measurement noise), the name of the variable, the position in it and
    the generation: 0 for the symbols created by set_variable, set_rhs and set_meas (lines 600, 717,
    785-787), n+1 for those of the n-th creation of structures (1: setup, later ones: unpickling).
    Symbols the user got elsewhere (from another model, from model.y, from casadi itself) are [Foreign].
    Simplification: variables are column vectors; two noise variables of the same name would be one here
    (they are excluded in the theorems). *)
From Verif Require Import Base DataModel MdlModel.
Local Open Scope string_scope.

Inductive space := SpK (k : kind) | SpW | SpV.
Inductive sym := Own (g : nat) (s : space) (n : string) (i : nat) | Foreign (k : nat).

Definition space_eqb (a b : space) : bool :=
  match a, b with
  | SpK Kx, SpK Kx | SpK Ku, SpK Ku | SpK Kz, SpK Kz | SpK Kp, SpK Kp | SpK Ktvp, SpK Ktvp
  | SpW, SpW | SpV, SpV => true
  | _, _ => false
  end.
Definition sym_eqb (a b : sym) : bool :=
  match a, b with
  | Own g s n i, Own g' s' n' i' => Nat.eqb g g' && space_eqb s s' && String.eqb n n' && Nat.eqb i i'
  | Foreign k, Foreign k' => Nat.eqb k k'
  | _, _ => false
  end.

Section Sym.
  Variable V : Type.                        (* numbers *)
  Variable op : nat -> V -> V -> V.         (* CasADi's operations; number 0 is the sum *)
  Variable v0 : V.                          (* the number zero *)

  Inductive ex := Cst (c : V) | Sy (s : sym) | Op (k : nat) (a b : ex).

  Fixpoint eval (rho : sym -> V) (e : ex) : V :=
    match e with Cst c => c | Sy s => rho s | Op k a b => op k (eval rho a) (eval rho b) end.
  Fixpoint occurs (s : sym) (e : ex) : bool :=
    match e with Cst _ => false | Sy t => sym_eqb s t | Op _ a b => occurs s a || occurs s b end.
  Fixpoint syms (e : ex) : list sym :=
    match e with Cst _ => [] | Sy s => [s] | Op _ a b => (syms a ++ syms b)%list end.
  (** Replacing symbols by expressions, all at once. *)
  Fixpoint subst (f : sym -> ex) (e : ex) : ex :=
    match e with Cst c => Cst c | Sy s => f s | Op k a b => Op k (subst f a) (subst f b) end.

  Notation model := (model ex).
  Notation assembled := (assembled ex).
  Definition noise_sym (process : bool) (n : string) (i : nat) : ex := Sy (Own 0 (if process then SpW else SpV) n i).
  Definition state_sym (n : string) (i : nat) : ex := Sy (Own 0 (SpK Kx) n i).

  (** The symbols of a structure with entries [l] (model/_model.py:852-855 _convert2struct: new symbols of the
      same names and shapes). *)
  Definition struct_syms (g : nat) (s : space) (l : list (string * nat)) : list sym :=
    flat_map (fun v => map (Own g s (fst v)) (seq 0 (snd v))) l.

  (** model/_model.py:971 var_dict_list: the dictionaries whose variables are replaced. *)
  Definition var_dicts (m : model) : list (space * list (string * nat)) :=
    [(SpK Kx, vx m); (SpW, vw m); (SpV, vv m); (SpK Ku, vu m); (SpK Kz, vz m); (SpK Kp, vp m); (SpK Ktvp, vtvp m)].

  (** castools.substitute(subs, var, sym_struct[name]), model/_model.py:879. *)
  Definition substitute (s : space) (n : string) (e : ex) : ex :=
    subst (fun y => match y with
                    | Own 0 s' n' i => if space_eqb s s' && String.eqb n n' then Sy (Own 1 s n i) else Sy y
                    | _ => Sy y
                    end) e.

  (** model/_model.py:872-886 _substitute_struct_vars, on one scalar expression. *)
  Definition substitute_all (ds : list (space * list (string * nat))) (e : ex) : ex :=
    fold_left (fun e d => fold_left (fun e v => substitute (fst d) (fst v) e) (snd d) e) ds e.
  Definition sub_entries (ds : list (space * list (string * nat))) (l : list (string * list ex)) : list (string * list ex) :=
    map (fun q => (fst q, map (substitute_all ds) (snd q))) l.

  (** casadi.Function: input symbols and output expressions; construction raises if an output mentions
      another symbol. *)
  Record cfun := mkFun { f_in : list (list sym); f_out : list ex }.
  Definition mem_sym (s : sym) (l : list sym) : bool := existsb (sym_eqb s) l.
  Definition closed (ins : list (list sym)) (e : ex) : bool := forallb (fun s => mem_sym s (List.concat ins)) (syms e).
  Definition mk_fun (ins : list (list sym)) (outs : list ex) : res cfun :=
    if forallb (closed ins) outs then Ok (mkFun ins outs) else Err ExcGeneric.

  (** Calling a function with numbers or with expressions: each input must have its length (CasADi's
      broadcasting of scalars is not modelled). *)
  Fixpoint lookup {A} (ss : list sym) (vs : list A) (d : A) (s : sym) : A :=
    match ss, vs with
    | t :: ss', v :: vs' => if sym_eqb s t then v else lookup ss' vs' d s
    | _, _ => d
    end.
  Fixpoint same_lens {A B} (a : list (list A)) (b : list (list B)) : bool :=
    match a, b with
    | [], [] => true
    | x :: a', y :: b' => Nat.eqb (List.length x) (List.length y) && same_lens a' b'
    | _, _ => false
    end.
  Definition call (f : cfun) (args : list (list V)) : res (list V) :=
    if same_lens (f_in f) args
    then Ok (map (eval (lookup (List.concat (f_in f)) (List.concat args) v0)) (f_out f)) else Err ExcGeneric.
  Definition callsym (f : cfun) (args : list (list ex)) : res (list ex) :=
    if same_lens (f_in f) args
    then Ok (map (subst (lookup (List.concat (f_in f)) (List.concat args) (Cst v0))) (f_out f)) else Err ExcGeneric.

  (** The structures of a model and the symbols of generation [g] in them. *)
  Definition x_in (g : nat) (m : model) := struct_syms g (SpK Kx) (vx m).
  Definition u_in (g : nat) (m : model) := struct_syms g (SpK Ku) (vu m).
  Definition z_in (g : nat) (m : model) := struct_syms g (SpK Kz) (vz m).
  Definition tvp_in (g : nat) (m : model) := struct_syms g (SpK Ktvp) (vtvp m).
  Definition p_in (g : nat) (m : model) := struct_syms g (SpK Kp) (vp m).
  Definition w_in (g : nat) (m : model) := struct_syms g SpW (vw m).
  Definition v_in (g : nat) (m : model) := struct_syms g SpV (vv m).

  Definition flat (l : list (string * list ex)) : list ex := flat_map snd l.

  (** model/_model.py:998-1012: the four functions (the Jacobians of lines 1013-1026 mention no further
      symbols and are the subject of LinModel.v). *)
  Record funs := mkFuns { rhs_fun : cfun; alg_fun : cfun; aux_fun : cfun; meas_fun : cfun }.
  Definition build_funs (m : model) (rhs alg aux meas : list (string * list ex)) : res funs :=
    let! f1 := mk_fun [x_in 1 m; u_in 1 m; z_in 1 m; tvp_in 1 m; p_in 1 m; w_in 1 m] (flat rhs) in
    let! f2 := mk_fun [x_in 1 m; u_in 1 m; z_in 1 m; tvp_in 1 m; p_in 1 m; w_in 1 m] (flat alg) in
    let! f3 := mk_fun [x_in 1 m; u_in 1 m; z_in 1 m; tvp_in 1 m; p_in 1 m] (flat aux) in
    let! f4 := mk_fun [x_in 1 m; u_in 1 m; z_in 1 m; tvp_in 1 m; p_in 1 m; v_in 1 m] (flat meas) in
    Ok (mkFuns f1 f2 f3 f4).

  (** model/_model.py:974-977 the substituted expressions, 998-1012 the functions of them. *)
  Definition sub_asm (m : model) (a : assembled) : assembled :=
    mkAsm (sub_entries (var_dicts m) (a_rhs a)) (sub_entries (var_dicts m) (a_alg a))
          (sub_entries (var_dicts m) (a_aux a)) (sub_entries (var_dicts m) (a_meas a)).
  Definition funs_of (m : model) (a : assembled) : res funs :=
    let b := sub_asm m a in build_funs m (a_rhs b) (a_alg b) (a_aux b) (a_meas b).
  Definition fun_ok (m : model) (a : assembled) : bool := is_ok (funs_of m a).

  (** A model that has been set up (or unpickled): structures with symbols of generation s_gen, the
      expressions _rhs, _alg, _aux_expression, _y_expression and the functions. *)
  Inductive symtype := SX | MX.
  Record sysmodel := mkSys {
    s_type : symtype; s_decl : model; s_gen : nat; s_asm : assembled; s_funs : funs }.

  Variable struct_ok : list string -> bool.
  Variable resetup : model -> model * res unit.
  Definition setup0 (m : model) : model * res unit :=
    setup ex (Cst v0) (Op 0) noise_sym struct_ok state_sym resetup fun_ok m.

  (** model/_model.py:921-1042 setup of a model made with symvar_type [t]: MdlModel.setup with this
      treatment of the expressions. *)
  Definition sys_setup (t : symtype) (m : model) : res sysmodel :=
    match setup0 m with
    | (m', Ok _) => let! a := functions m' in let! f := funs_of m' a in Ok (mkSys t m' 1 (sub_asm m' a) f)
    | (_, Err e) => Err e
    end.

  (** ** Python variables that hold symbols *)
  (** What a python name refers to: the object returned by set_variable (shared with the model, so that
      model/_model.py:914-918 _substitute_exported_vars can make it denote the new symbol), or any other
      object (an entry of model.x taken before setup, lines 194-211; an expression), which nothing changes. *)
  Inductive pyobj := Exported (k : kind) (n : string) | Fixed (l : list ex).

  (** The symbols an exported object denotes: generation 0 until setup, then those of the structure. *)
  Definition heap := space -> string -> nat.   (* generation the exported variable points to *)
  Definition heap0 : heap := fun _ _ => 0.
  (** model/_model.py:914-918 _substitute_exported_vars. *)
  Definition export_one (s : space) (n : string) (h : heap) : heap :=
    fun s' n' => if space_eqb s s' && String.eqb n n' then 1 else h s' n'.
  Definition substitute_exported (ds : list (space * list (string * nat))) (h : heap) : heap :=
    fold_left (fun h d => fold_left (fun h v => export_one (fst d) (fst v) h) (snd d) h) ds h.

  (** Using a python name in an expression: the entries it denotes now. *)
  Definition deref (h : heap) (m : model) (o : pyobj) : list ex :=
    match o with
    | Exported k n => map (fun i => Sy (Own (h (SpK k) n) (SpK k) n i)) (seq 0 (size_of n (vars k m)))
    | Fixed l => l
    end.

  (** model/_model.py:194-211 _getvar before setup: a structure holding the original symbols, and
      model.x[name] of it; after setup: the structure of setup.  [g] is 0 before and s_gen after. *)
  Definition getvar (g : nat) (m : model) (k : kind) (n : string) : res (list ex) :=
    if mem_name n (vars k m)
    then Ok (map (fun i => Sy (Own g (SpK k) n i)) (seq 0 (size_of n (vars k m)))) else Err ExcKey.

  (** model/_model.py:190-211 _getvar('_aux_expression') before setup and after. *)
  Definition getaux (l : list (string * list ex)) (n : string) : res (list ex) :=
    match alookup n l with Some e => Ok e | None => Err ExcKey end.

  (** ** Pickling *)
  (** model/_model.py:139-146 __getstate__: the attributes, if the model uses SX and is set up. *)
  Definition getstate (t : symtype) (s : option sysmodel) : res sysmodel :=
    match t with
    | MX => Err ExcGeneric
    | SX => match s with Some s => Ok s | None => Err ExcGeneric end
    end.

  (** Reading a structure of expressions back creates symbols that belong to nothing else ([junk]), reading
      a structure of symbols creates the next generation; the functions are stored with their own symbols. *)
  Definition reread (junk : sym -> nat) (l : list (string * list ex)) : list (string * list ex) :=
    map (fun q => (fst q, map (subst (fun s => Sy (Foreign (junk s)))) (snd q))) l.
  (** structure(vector): the same entries with the new content. *)
  Fixpoint refill (l : list (string * list ex)) (vec : list ex) : list (string * list ex) :=
    match l with
    | [] => []
    | (n, e) :: l' => (n, firstn (List.length e) vec) :: refill l' (skipn (List.length e) vec)
    end.
  Definition sy (l : list sym) : list ex := map Sy l.
  (** model/_model.py:148-158 __setstate__. *)
  Definition setstate (junk : sym -> nat) (s : sysmodel) : res sysmodel :=
    let g := S (s_gen s) in
    let m := s_decl s in
    let f := s_funs s in
    let a := mkAsm (reread junk (a_rhs (s_asm s))) (reread junk (a_alg (s_asm s)))
                   (reread junk (a_aux (s_asm s))) (reread junk (a_meas (s_asm s))) in
    let xuztp := [sy (x_in g m); sy (u_in g m); sy (z_in g m); sy (tvp_in g m); sy (p_in g m)] in
    let! rhs := callsym (rhs_fun f) (xuztp ++ [sy (w_in g m)])%list in
    let! alg := callsym (alg_fun f) (xuztp ++ [sy (w_in g m)])%list in
    let! aux := callsym (aux_fun f) xuztp in
    let! meas := callsym (meas_fun f) (xuztp ++ [sy (v_in g m)])%list in
    Ok (mkSys (s_type s) m g
          (mkAsm (refill (a_rhs a) rhs) (refill (a_alg a) alg) (refill (a_aux a) aux) (refill (a_meas a) meas)) f).
  Definition pickle (junk : sym -> nat) (s : sysmodel) : res sysmodel :=
    let! st := getstate (s_type s) (Some s) in setstate junk st.

  (** ** Queries by index *)
  (** model/_model.py:178-188 __getitem__; [attr] is getattr(model, name). *)
  Variable Obj : Type.
  Variable attr : string -> res Obj.
  Definition var_names : list string := ["x"; "u"; "z"; "p"; "tvp"; "y"; "aux"; "w"].
  Inductive index := ITuple (l : list string) | IName (n : string).
  Inductive answer := Many (l : list Obj) | One (o : Obj).
  Fixpoint get_all (l : list string) : res (list Obj) :=
    match l with
    | [] => Ok []
    | n :: l' => let! _ := py_assert (existsb (String.eqb n) var_names) in
                 let! o := attr n in let! r := get_all l' in Ok (o :: r)
    end.
  Definition getitem (i : index) : res answer :=
    match i with
    | ITuple l => let! r := get_all l in Ok (Many r)
    | IName n => let! o := attr n in Ok (One o)
    end.
End Sym.
