(** * Model of the low-level interface of do_mpc/optimizer.py: class Optimizer (MPC and MHE):
    prepare_nlp / create_nlp, nlp_obj, nlp_cons, nlp_cons_lb, nlp_cons_ub, lb_opt_x, ub_opt_x, opt_x_num,
    opt_p_num, solve, and assignments to bounds in between.

    What _prepare_nlp builds (NlpModel.v, MheNlpModel.v) is here an arbitrary function of the
    configuration.  Symbolic expressions of opt_x and opt_p are functions of the (scaled) vector of
    optimisation variables and the parameters.  The solver is an arbitrary function of what it is
    called with.  Simplifications: expressions mention no other symbols; the dimension check of
    casadi is that of casadi.Function (equal length, one value for all, or empty). *)
From Coq Require Import Reals.
From Verif Require Import Base MpcModel.
Import List.
Set Implicit Arguments.
Local Open Scope R_scope.

Definition xr := ext R.
(** -inf/s, v/s, inf/s of numpy for a finite factor s (a non-positive s is not used). *)
Definition ediv (v : xr) (s : R) : xr := match v with MInf => MInf | Fin r => Fin (r / s) | PInf => PInf end.

(** l[k] = v *)
Fixpoint lset {A} (l : list A) (k : nat) (v : A) : list A :=
  match l, k with
  | [], _ => []
  | _ :: t, O => v :: t
  | a :: t, Datatypes.S k' => a :: lset t k' v
  end.

Record OEnv := mkOEnv {
  Cfg : Type;                (* the configuration: settings, objective, constraints, scaling *)
  Bnd : Type;                (* the structures behind the attribute bounds *)
  Prm : Type;                (* values of opt_p_num *)
  Ix : Type;                 (* power indices into opt_x *)
  Sta : Type;                (* solver statistics *)
  cfg0 : Cfg; bnd0 : Bnd; prm0 : Prm }.

Section Opt.
  Variable E : OEnv.
  Notation ex := (list R -> Prm E -> R).

  (** What _prepare_nlp builds (controller/_mpc.py:1087-1281, estimator/_mhe.py:1031-1193): the structure
      opt_x with its scaling, the objective, the list of constraint blocks and their bounds, and the
      assignments made by _update_bounds for given ordinary bounds (index, values), in order. *)
  Record base := mkBase {
    b_n : nat; b_scal : list R; b_ix : Ix E -> res (list nat);
    b_obj : ex; b_g : list (list ex); b_glb : list (list xr); b_gub : list (list xr);
    b_ord : side -> Bnd E -> list (list nat * list xr) }.

  (** The attributes nlp_cons and nlp_cons_lb/ub: a list of blocks before create_nlp, a vector afterwards. *)
  Inductive cval (A : Type) := CList (l : list (list A)) | CVec (l : list A).

  (** The solver object made by castools.nlpsol: number of variables, objective, constraints. *)
  Record nlp := mkNlp { p_n : nat; p_obj : ex; p_g : list ex }.
  (** The arguments of one call of the solver object. *)
  Record request := mkReq { q_nlp : nlp; q_x0 : list R; q_lbx : list xr; q_ubx : list xr; q_lbg : list xr; q_ubg : list xr;
    q_p : Prm E; q_lam : option (list R * list R) }.
  (** Its results: x, lam_g, lam_x, statistics. *)
  Record answer := mkAns { a_x : list R; a_lg : list R; a_lx : list R; a_st : Sta E }.

  Record opt := mkOpt {
    o_prep : bool; o_setup : bool; o_run : bool;      (* flags prepare_nlp, setup, initial_run *)
    o_cfg : Cfg E; o_bnd : Bnd E;
    o_base : option base;                             (* the structures opt_x, opt_x_scaling of the last _prepare_nlp *)
    o_lb : list xr; o_ub : list xr;                   (* _lb_opt_x, _ub_opt_x *)
    o_obj : option ex; o_g : option (cval ex); o_glb : option (cval xr); o_gub : option (cval xr);
    o_S : option nlp;
    o_x : list R; o_xu : list R; o_p : Prm E;         (* opt_x_num, opt_x_num_unscaled, opt_p_num *)
    o_lam : option (list R * list R) }.               (* lam_g_num, lam_x_num *)

  (** optimizer.py:42-80 __init__. *)
  Definition opt_init : opt :=
    mkOpt false false false (cfg0 E) (bnd0 E) None [] [] None None None None None [] [] (prm0 E) None.

  Definition with_bounds (lb ub : list xr) (s : opt) : opt :=
    mkOpt (o_prep s) (o_setup s) (o_run s) (o_cfg s) (o_bnd s) (o_base s) lb ub (o_obj s) (o_g s) (o_glb s) (o_gub s)
      (o_S s) (o_x s) (o_xu s) (o_p s) (o_lam s).
  Definition with_nlp (f : option ex) (g : option (cval ex)) (l u : option (cval xr)) (s : opt) : opt :=
    mkOpt (o_prep s) (o_setup s) (o_run s) (o_cfg s) (o_bnd s) (o_base s) (o_lb s) (o_ub s) f g l u
      (o_S s) (o_x s) (o_xu s) (o_p s) (o_lam s).

  (** *** lb_opt_x, ub_opt_x *)
  (** struct[ind] = val: one value for all entries or one per entry. *)
  Definition spread_to (pos : list nat) (vals : list xr) : res (list (nat * xr)) :=
    match vals with
    | [v] => Ok (map (fun p => (p, v)) pos)
    | _ => if Nat.eqb (List.length vals) (List.length pos) then Ok (combine pos vals) else Err ExcGeneric
    end.
  (** optimizer.py:233-239 and 259-265: write the values, then divide the entries written by their
      scaling factor. *)
  Definition write_scaled (sc : list R) (l : list xr) (w : list (nat * xr)) : list xr :=
    let l1 := fold_left (fun l pv => lset l (fst pv) (snd pv)) w l in
    fold_left (fun l p => match nth_error l p, nth_error sc p with Some v, Some s => lset l p (ediv v s) | _, _ => l end) (map fst w) l1.
  (** optimizer.py:234-239, 260-265: the setter. *)
  Definition set_optx (s : opt) (d : side) (i : Ix E) (vals : list xr) : res opt :=
    match o_base s with
    | None => Err ExcType                             (* None[ind] = val *)
    | Some b =>
        let! pos := b_ix b i in
        let! w := spread_to pos vals in
        Ok (match d with
            | Lower => with_bounds (write_scaled (b_scal b) (o_lb s) w) (o_ub s) s
            | Upper => with_bounds (o_lb s) (write_scaled (b_scal b) (o_ub s) w) s
            end)
    end.
  (** optimizer.py:218-231, 244-257: the getter. *)
  Definition get_optx (s : opt) (d : side) (i : Ix E) : res (list xr) :=
    match o_base s with
    | None => Err ExcType
    | Some b => let! pos := b_ix b i in Ok (map (fun p => nth p (match d with Lower => o_lb s | Upper => o_ub s end) MInf) pos)
    end.

  (** controller/_mpc.py:1052-1085, estimator/_mhe.py:992-1029 _update_bounds: a sequence of assignments to
      lb_opt_x and ub_opt_x. *)
  Definition write_all (sc : list R) (l : list xr) (ws : list (list nat * list xr)) : list xr :=
    fold_left (fun l w => write_scaled sc l (combine (fst w) (snd w))) ws l.
  Definition update_bounds (b : base) (bd : Bnd E) (lb ub : list xr) : list xr * list xr :=
    (write_all (b_scal b) lb (b_ord b Lower bd), write_all (b_scal b) ub (b_ord b Upper bd)).

  (** optimizer.py:322-353: an accepted assignment to bounds changes the structures and, once the problem is
      prepared, calls _update_bounds. *)
  Definition set_bnd (s : opt) (f : Bnd E -> Bnd E) : opt :=
    let bd := f (o_bnd s) in
    let s1 := mkOpt (o_prep s) (o_setup s) (o_run s) (o_cfg s) bd (o_base s) (o_lb s) (o_ub s) (o_obj s) (o_g s) (o_glb s) (o_gub s)
                (o_S s) (o_x s) (o_xu s) (o_p s) (o_lam s) in
    match o_prep s, o_base s with
    | true, Some b => let '(lb, ub) := update_bounds b bd (o_lb s) (o_ub s) in with_bounds lb ub s1
    | _, _ => s1
    end.
  (** Any other accepted change of the configuration (settings, objective, constraints, scaling). *)
  Definition set_cfg (s : opt) (f : Cfg E -> Cfg E) : opt :=
    mkOpt (o_prep s) (o_setup s) (o_run s) (f (o_cfg s)) (o_bnd s) (o_base s) (o_lb s) (o_ub s) (o_obj s) (o_g s) (o_glb s) (o_gub s)
      (o_S s) (o_x s) (o_xu s) (o_p s) (o_lam s).

  (** *** nlp_obj, nlp_cons, nlp_cons_lb, nlp_cons_ub *)
  (** optimizer.py:112-116: the setter of nlp_obj. *)
  Definition set_obj (s : opt) (f : ex) : res opt :=
    if negb (o_prep s) then Err ExcAssertion else if o_setup s then Err ExcAssertion
    else Ok (with_nlp (Some f) (o_g s) (o_glb s) (o_gub s) s).
  (** optimizer.py:82-110: the getter. *)
  Definition get_obj (s : opt) : res (option ex) := if negb (o_prep s) then Err ExcAssertion else Ok (o_obj s).
  (** optimizer.py:160-164: the setter of nlp_cons. *)
  Definition set_cons (s : opt) (v : cval ex) : res opt :=
    if negb (o_prep s) then Err ExcAssertion else if o_setup s then Err ExcAssertion
    else Ok (with_nlp (o_obj s) (Some v) (o_glb s) (o_gub s) s).
  (** optimizer.py:187-190 and 212-215: the setters of nlp_cons_lb and nlp_cons_ub (no check of the setup flag). *)
  Definition set_glb (s : opt) (v : cval xr) : res opt :=
    if negb (o_prep s) then Err ExcAssertion else Ok (with_nlp (o_obj s) (o_g s) (Some v) (o_gub s) s).
  Definition set_gub (s : opt) (v : cval xr) : res opt :=
    if negb (o_prep s) then Err ExcAssertion else Ok (with_nlp (o_obj s) (o_g s) (o_glb s) (Some v) s).
  (** value.append(block): a casadi matrix has no append. *)
  Definition append {A} (v : option (cval A)) (blk : list A) : res (option (cval A)) :=
    match v with Some (CList l) => Ok (Some (CList (l ++ [blk]))) | _ => Err ExcAttribute end.
  (** obj.nlp_cons.append(g), obj.nlp_cons_lb.append(l), obj.nlp_cons_ub.append(u): the getters
      (optimizer.py:118-158, 167-185, 192-210) check the prepare flag; append changes the list in place. *)
  Definition app_cons (s : opt) (blk : list ex) : res opt :=
    if negb (o_prep s) then Err ExcAssertion else let! v := append (o_g s) blk in Ok (with_nlp (o_obj s) v (o_glb s) (o_gub s) s).
  Definition app_glb (s : opt) (blk : list xr) : res opt :=
    if negb (o_prep s) then Err ExcAssertion else let! v := append (o_glb s) blk in Ok (with_nlp (o_obj s) (o_g s) v (o_gub s) s).
  Definition app_gub (s : opt) (blk : list xr) : res opt :=
    if negb (o_prep s) then Err ExcAssertion else let! v := append (o_gub s) blk in Ok (with_nlp (o_obj s) (o_g s) (o_glb s) v s).

  (** *** prepare_nlp, create_nlp *)
  Variable build : Cfg E -> res base.

  (** optimizer.py:1038-1059 with controller/_mpc.py:1087-1281 (estimator/_mhe.py:1031-1193): build, bounds
      (all infinite, then _update_bounds; 1159-1160, 1267), numerical copies with zeros (1276-1279). *)
  Definition prepare (s : opt) : opt * res unit :=
    match build (o_cfg s) with
    | Err e => (s, Err e)
    | Ok b =>
        let '(lb, ub) := update_bounds b (o_bnd s) (repeat MInf (b_n b)) (repeat PInf (b_n b)) in
        (mkOpt true (o_setup s) (o_run s) (o_cfg s) (o_bnd s) (Some b) lb ub
           (Some (b_obj b)) (Some (CList (b_g b))) (Some (CList (b_glb b))) (Some (CList (b_gub b)))
           (o_S s) (repeat 0 (b_n b)) (repeat 0 (b_n b)) (prm0 E) (o_lam s), Ok tt)
    end.

  (** castools.vertcat( *v): a casadi matrix is not iterable. *)
  Definition vertcat {A} (v : option (cval A)) : res (list A) :=
    match v with Some (CList l) => Ok (concat l) | Some (CVec _) => Err ExcGeneric | None => Err ExcAttribute end.

  (** optimizer.py:1061-1081 with controller/_mpc.py:1283-1309 (estimator/_mhe.py:1195-1233).  The three
      concatenations happen one after the other and each is stored. *)
  Definition create (s : opt) : opt * res unit :=
    match vertcat (o_g s) with
    | Err e => (s, Err e)
    | Ok g =>
        let s1 := with_nlp (o_obj s) (Some (CVec g)) (o_glb s) (o_gub s) s in
        match vertcat (o_glb s1) with
        | Err e => (s1, Err e)
        | Ok l =>
            let s2 := with_nlp (o_obj s1) (o_g s1) (Some (CVec l)) (o_gub s1) s1 in
            match vertcat (o_gub s2) with
            | Err e => (s2, Err e)
            | Ok u =>
                let s3 := with_nlp (o_obj s2) (o_g s2) (o_glb s2) (Some (CVec u)) s2 in
                match o_obj s3, o_base s3 with
                | Some f, Some b =>
                    (mkOpt (o_prep s3) true (o_run s3) (o_cfg s3) (o_bnd s3) (o_base s3) (o_lb s3) (o_ub s3) (o_obj s3) (o_g s3) (o_glb s3) (o_gub s3)
                       (Some (mkNlp (b_n b) f g)) (o_x s3) (o_xu s3) (o_p s3) (o_lam s3), Ok tt)
                | _, _ => (s3, Err ExcAttribute)
                end
            end
        end
    end.

  (** controller/_mpc.py:924-944, estimator/_mhe.py:882-890 setup. *)
  Definition setup (s : opt) : opt * res unit :=
    match prepare s with (s1, Ok _) => create s1 | (s1, Err e) => (s1, Err e) end.

  (** *** solve *)
  (** casadi's check of one argument of length n: the same length, empty (zeros), or one value for all. *)
  Definition fit {A} (zero : A) (n : nat) (l : list A) : res (list A) :=
    if Nat.eqb (List.length l) n then Ok l
    else match l with [] => Ok (repeat zero n) | [v] => Ok (repeat v n) | _ => Err ExcGeneric end.
  (** A list of matrices is no valid argument (a simplification: casadi might accept a list of 1x1 matrices). *)
  Definition as_vec {A} (v : option (cval A)) : res (list A) := match v with Some (CVec l) => Ok l | _ => Err ExcGeneric end.

  (** optimizer.py:753-774: the arguments of the solver object, multipliers only after a first run. *)
  Definition request_of (s : opt) : res request :=
    match o_S s with
    | None => Err ExcAttribute
    | Some pr =>
        let n := p_n pr in let ng := List.length (p_g pr) in
        let! gl := as_vec (o_glb s) in let! gu := as_vec (o_gub s) in
        let! x0 := fit 0 n (o_x s) in
        let! lb := fit (Fin 0) n (o_lb s) in let! ub := fit (Fin 0) n (o_ub s) in
        let! gl := fit (Fin 0) ng gl in let! gu := fit (Fin 0) ng gu in
        let! lam := (if o_run s then match o_lam s with
                                     | Some (lg, lx) => let! lg := fit 0 ng lg in let! lx := fit 0 n lx in Ok (Some (lg, lx))
                                     | None => Err ExcAttribute end
                     else Ok None) in
        Ok (mkReq pr x0 lb ub gl gu (o_p s) lam)
    end.

  Variable S_ : request -> answer.

  (** r['x'] * opt_x_scaling, entry by entry. *)
  Definition times (x sc : list R) : list R := map (fun p => fst p * snd p) (combine x sc).

  (** optimizer.py:751-787 solve (auxiliary expressions and statistics: see MpcModel.v).  Returns what the
      solver was called with. *)
  Definition solve (s : opt) : opt * res request :=
    if negb (o_setup s) then (s, Err ExcAssertion)
    else match request_of s with
         | Err e => (s, Err e)
         | Ok q =>
             let a := S_ q in
             match o_base s with
             | None => (s, Err ExcAttribute)
             | Some b =>
                 if negb (Nat.eqb (List.length (a_x a)) (b_n b)) then (s, Err ExcGeneric)   (* master of another size *)
                 else (mkOpt (o_prep s) (o_setup s) true (o_cfg s) (o_bnd s) (o_base s) (o_lb s) (o_ub s) (o_obj s) (o_g s) (o_glb s) (o_gub s)
                         (o_S s) (a_x a) (times (a_x a) (b_scal b)) (o_p s) (Some (a_lg a, a_lx a)), Ok q)
             end
         end.

  (** controller/_mpc.py:262-264 and 309-311 (estimator/_mhe.py likewise): assignment of opt_x_num, opt_p_num. *)
  Definition set_x (s : opt) (x : list R) : opt :=
    mkOpt (o_prep s) (o_setup s) (o_run s) (o_cfg s) (o_bnd s) (o_base s) (o_lb s) (o_ub s) (o_obj s) (o_g s) (o_glb s) (o_gub s)
      (o_S s) x (o_xu s) (o_p s) (o_lam s).
  Definition set_p (s : opt) (p : Prm E) : opt :=
    mkOpt (o_prep s) (o_setup s) (o_run s) (o_cfg s) (o_bnd s) (o_base s) (o_lb s) (o_ub s) (o_obj s) (o_g s) (o_glb s) (o_gub s)
      (o_S s) (o_x s) (o_xu s) p (o_lam s).

  (** optimizer.py:709-728 compile_nlp: after the checks and, if the library is missing or overwrite is given,
      the compilation, the name nlpsol is not defined in this module. *)
  Definition compile_nlp (s : opt) : res unit := if negb (o_setup s) then Err ExcGeneric else Err ExcName.

  (** *** Programs *)
  Inductive ocall :=
  | OCfg (f : Cfg E -> Cfg E) | OBnd (f : Bnd E -> Bnd E) | OPrepare | OCreate | OSetup
  | OObj (f : ex) | OAddCost (f : ex)                                        (* nlp_obj = f; nlp_obj += f *)
  | OCons (v : cval ex) | OGlb (v : cval xr) | OGub (v : cval xr)
  | OAppCons (g : list ex) | OAppGlb (l : list xr) | OAppGub (u : list xr)
  | OOptx (d : side) (i : Ix E) (vals : list xr)
  | OX (x : list R) | OP (p : Prm E) | OSolve | OCompile.

  Definition lift (s : opt) (r : res opt) : opt * res (option request) :=
    match r with Ok s' => (s', Ok None) | Err e => (s, Err e) end.
  Definition lift2 (r : opt * res unit) : opt * res (option request) :=
    match r with (s, Ok _) => (s, Ok None) | (s, Err e) => (s, Err e) end.
  (** obj.nlp_obj += f: getter, then setter. *)
  Definition add_cost (s : opt) (f : ex) : res opt :=
    let! o := get_obj s in
    match o with Some g => set_obj s (fun x p => g x p + f x p) | None => Err ExcAttribute end.
  Definition do (s : opt) (c : ocall) : opt * res (option request) :=
    match c with
    | OCfg f => (set_cfg s f, Ok None)
    | OBnd f => (set_bnd s f, Ok None)
    | OPrepare => lift2 (prepare s)
    | OCreate => lift2 (create s)
    | OSetup => lift2 (setup s)
    | OObj f => lift s (set_obj s f)
    | OAddCost f => lift s (add_cost s f)
    | OCons v => lift s (set_cons s v)
    | OGlb v => lift s (set_glb s v)
    | OGub v => lift s (set_gub s v)
    | OAppCons g => lift s (app_cons s g)
    | OAppGlb l => lift s (app_glb s l)
    | OAppGub u => lift s (app_gub s u)
    | OOptx d i v => lift s (set_optx s d i v)
    | OX x => (set_x s x, Ok None)
    | OP p => (set_p s p, Ok None)
    | OSolve => match solve s with (s', Ok q) => (s', Ok (Some q)) | (s', Err e) => (s', Err e) end
    | OCompile => match compile_nlp s with Ok _ => (s, Ok None) | Err e => (s, Err e) end
    end.
  Definition run (s : opt) (h : list ocall) : opt := fold_left (fun s c => fst (do s c)) h s.
End Opt.
Arguments CList {A} l. Arguments CVec {A} l.
Arguments OCfg {E} f. Arguments OBnd {E} f. Arguments OPrepare {E}. Arguments OCreate {E}. Arguments OSetup {E}. Arguments OObj {E} f.
Arguments OAddCost {E} f. Arguments OCons {E} v. Arguments OGlb {E} v. Arguments OGub {E} v. Arguments OAppCons {E} g. Arguments OAppGlb {E} l.
Arguments OAppGub {E} u. Arguments OOptx {E} d i vals. Arguments OX {E} x. Arguments OP {E} p. Arguments OSolve {E}. Arguments OCompile {E}.
