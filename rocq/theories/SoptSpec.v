(** * Specification for C98 and C99: what a history of calls says about the options and the problem of a solver.

    Everything here is said about the list of the user's calls; no state of the model is mentioned. *)
From Verif Require Import Base SoptModel.
Local Open Scope string_scope. Local Open Scope list_scope.

(** The dictionaries and the objects that exist after some calls; they are numbered in the order of creation.
    Every object is created with a dictionary of its own. *)
Definition makes_dict (e : sevent) : bool := match e with ENew _ | EDict => true | _ => false end.
Definition makes_obj (e : sevent) : bool := match e with ENew _ => true | _ => false end.
Definition dicts (h : list sevent) : nat := List.length (filter makes_dict h).
Definition objs (h : list sevent) : nat := List.length (filter makes_obj h).

(** [e], called after [past], is the last event of [h] with a property that depends on what happened before. *)
Definition last_such (Q : list sevent -> sevent -> Prop) (h : list sevent) (past : list sevent) (e : sevent) : Prop :=
  exists later, h = past ++ e :: later /\ Q past e
    /\ forall l1 e' l2, later = l1 ++ e' :: l2 -> ~ Q (past ++ e :: l1) e'.

Definition set_up (h : list sevent) (i : nat) : Prop := exists past p later, h = past ++ ESetup i p :: later /\ i < objs past.

(** The call that decides which dictionary an object uses. *)
Definition chooses (i d : nat) (past : list sevent) (e : sevent) : Prop :=
  match e with
  | ENew _ => i = objs past /\ d = dicts past
  | EAssign j d' => j = i /\ d' = d /\ i < objs past /\ d < dicts past
  | EParam j d' => j = i /\ d' = d /\ i < objs past /\ d < dicts past /\ ~ set_up past i
  | _ => False
  end.
(** The dictionary object [i] uses after [h]. *)
Definition in_force (h : list sevent) (i d : nat) : Prop :=
  exists past e, last_such (fun past e => exists d', chooses i d' past e) h past e /\ chooses i d past e.

(** The call [e] writes value [v] under key [k] into dictionary [d]. *)
Definition writes (d : nat) (k v : string) (past : list sevent) (e : sevent) : Prop :=
  match e with
  | EWrite d' k' v' => d' = d /\ k' = k /\ v' = v /\ d < dicts past
  | EQuiet i => in_force past i d /\ In (k, v) [("ipopt.print_level", "0"); ("ipopt.sb", "yes"); ("print_time", "0")]
  | ELinear i n => in_force past i d /\ k = "ipopt.linear_solver" /\ v = n
  | _ => False
  end.
(** The value under key [k] of dictionary [d] after [h] is the last one written. *)
Definition option_is (h : list sevent) (d : nat) (k v : string) : Prop :=
  exists past e, last_such (fun past e => exists v', writes d k v' past e) h past e /\ writes d k v past e.

(** The problem object [i] was last set up with. *)
Definition own_problem (h : list sevent) (i p : nat) : Prop :=
  exists past, last_such (fun past e => exists p', e = ESetup i p' /\ i < objs past) h past (ESetup i p).

(** Histories in which no options dictionary is passed around: options are only written entry by entry or with the
    methods of the settings. *)
Definition shares (e : sevent) : bool := match e with EParam _ _ | EAssign _ _ => true | _ => false end.
(** The dictionary object [i] was created with. *)
Definition created_with (h : list sevent) (i d : nat) : Prop :=
  exists past g later, h = past ++ ENew g :: later /\ i = objs past /\ d = dicts past.
(** The call is one of object [i]'s own: it goes to the options of [i] and to no others. *)
Definition own_write (i : nat) (k v : string) (past : list sevent) (e : sevent) : Prop :=
  match e with
  | EWrite d k' v' => created_with past i d /\ k' = k /\ v' = v
  | EQuiet j => j = i /\ i < objs past /\ In (k, v) [("ipopt.print_level", "0"); ("ipopt.sb", "yes"); ("print_time", "0")]
  | ELinear j n => j = i /\ i < objs past /\ k = "ipopt.linear_solver" /\ v = n
  | _ => False
  end.

(** The calls that build a solver for object [i]. *)
Definition rebuilds (i : nat) (e : sevent) : bool :=
  match e with ESetup j _ | ECompile j _ _ _ _ => Nat.eqb j i | _ => false end.

(** Every library name is used for one problem only. *)
Definition respects (owner : string -> nat) (h : list sevent) : Prop :=
  forall past i ow c l g later p, h = past ++ ECompile i ow c l g :: later -> own_problem past i p -> owner l = p.
