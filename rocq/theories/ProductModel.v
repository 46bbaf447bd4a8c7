(** * [itertools.product] and [MPC.set_uncertainty_values].
    do_mpc/controller/_mpc.py lines 810-872; also used by the sampling planner. *)
From Verif Require Import Base.

(** [itertools.product( *pools )], as defined in the python library reference:
      result = [[]]
      for pool in pools: result = [x+[y] for x in result for y in pool]   *)
Definition product_step {A} (result : list (list A)) (pool : list A) : list (list A) :=
  flat_map (fun x => map (fun y => x ++ [y]) pool) result.
Definition itertools_product {A} (pools : list (list A)) : list (list A) :=
  fold_left product_step pools [[]].

Section Uncertainty.
  Variable V : Type.
  Variable zero : V.

  (** Keyword arguments of [set_uncertainty_values]: (parameter name, list of values), in
      call order; a dict, so names are distinct.  [valid] are the model's parameter names
      (scalars; simplification: vector valued parameters are not modelled).
      The result is (n_combinations, p_template) with p_template a list over combinations
      of (name -> value); entries that are not named stay 0 ([p_template(0)], line 754).
      [None] is the early return for no keyword (line 847). *)
  Definition lookup_comb (names : list string) (vals : list V) (n : string) : V :=
    match find (fun nv => String.eqb n (fst nv)) (combine names vals) with
    | Some nv => snd nv
    | None => zero
    end.

  (** _mpc.py:846-872. *)
  Definition set_uncertainty_values (valid : list string) (kwargs : list (string * list V))
    : res (option (nat * list (string -> V))) :=
    match kwargs with
    | [] => Ok None
    | _ =>
      let names := map fst kwargs in
      let! _ := py_assert (forallb (fun n => existsb (String.eqb n) valid) names) in
      let p_scenario := itertools_product (map snd kwargs) in
      let n_combinations := List.length p_scenario in
      Ok (Some (n_combinations, map (lookup_comb names) p_scenario))
    end.
End Uncertainty.
Arguments set_uncertainty_values {V} zero valid kwargs.
Arguments lookup_comb {V} zero names vals n.
