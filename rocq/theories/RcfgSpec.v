(** * Specification vocabulary for C107: what calls of set_rterm ask for. *)
From Coq Require Import Reals.
From Verif Require Import Base NlpModel NlpSpec RcfgModel.
Local Open Scope R_scope.

(** A keyword is valid if it names an input and its value is a number or an array with one entry or one per entry of the input. *)
Definition valid_kw (l : layout) (kv : string * fval) : bool :=
  match find (fun e => String.eqb (fst e) (fst kv)) l, snd kv with
  | Some _, FNum _ => true
  | Some (_, n), FArr vs => Nat.eqb (List.length vs) 1 || Nat.eqb (List.length vs) n
  | _, _ => false
  end.
(** The keywords of a call before the first invalid one. *)
Fixpoint reached (l : layout) (kws : list (string * fval)) : list (string * fval) :=
  match kws with [] => [] | kv :: r => if valid_kw l kv then kv :: reached l r else [] end.
(** All keywords of a list of calls that are reached, in order (a call with an expression does not look at its keywords). *)
Definition all_reached (l : layout) (h : list rcall) : list (string * fval) :=
  flat_map (fun c => match c with CRate None kws => reached l kws | _ => [] end) h.
(** The entry i of a value. *)
Definition entry_of (v : fval) (i : nat) : R := match v with FNum r => r | FArr [r] => r | FArr vs => nth i vs 0 | FOther => 0 end.
(** The factor of entry i of the input called name: that of the last keyword with this name, 0 without one. *)
Definition factor_of (kws : list (string * fval)) (name : string) (i : nat) : R :=
  match find (fun kv => String.eqb (fst kv) name) (rev kws) with Some kv => entry_of (snd kv) i | None => 0 end.
(** The last good expression. *)
Definition expressions (h : list rcall) : list (vec -> vec -> vec -> vec -> vec -> vec -> R) :=
  flat_map (fun c => match c with CRate (Some (EGood f)) _ => [f] | _ => [] end) h.
Definition last_expression (h : list rcall) : option (vec -> vec -> vec -> vec -> vec -> vec -> R) :=
  match rev (expressions h) with [] => None | f :: _ => Some f end.
(** set_rterm and failed or repeated preparations, no creation of the solver. *)
Definition configuring (c : rcall) : bool := match c with CRate _ _ | CPrepare _ => true | CCreate => false | CSetup ok => negb ok end.
Definition distinct_names (l : layout) : Prop := NoDup (map fst l).
(** The configuration with this penalty. *)
Definition with_penalty (c : cfg) (k : rterm_kind) : cfg :=
  {| N := N c; nr := nr c; ncomb := ncomb c; open_loop := open_loop c; single_slack := single_slack c;
     chk_colloc := chk_colloc c; nl_chk_colloc := nl_chk_colloc c; mdl := mdl c;
     sx := sx c; su := su c; sz := sz c; disc := disc c; nlc := nlc c; lterm := lterm c; mterm := mterm c;
     rterm := k; xlb := xlb c; xub := xub c; ulb := ulb c; uub := uub c; zlb := zlb c; zub := zub c;
     tlb := tlb c; tub := tub c |}.
