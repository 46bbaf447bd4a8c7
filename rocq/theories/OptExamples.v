(** * Concrete cases of C77, C78, C79 and the cases in which they fail. *)
From Coq Require Import Reals Lra.
From Verif Require Import Base MpcModel OptModel OptSpec OptProofs OptProps.
Import List.
Local Open Scope R_scope.

(** The configuration is the number of variables, the ordinary bound one upper bound for all, the scaling 2. *)
Definition xE : OEnv := @mkOEnv nat xr R nat unit 2%nat PInf 0.
Definition x_scal (n : nat) : list R := repeat 2 n.
Definition x_base (n : nat) : base xE :=
  @mkBase xE n (x_scal n) (fun k => if Nat.ltb k n then Ok [k] else Err ExcKey)
    (fun x p => nth 0 x 0 * p) [[fun x p => nth 0 x 0 - p; fun x p => nth 1 x 0]] [[Fin 0; Fin 0]] [[Fin 0; PInf]]
    (fun d bd => match d with Lower => [] | Upper => [(seq 0 n, repeat bd n)] end).
Definition x_build (n : Cfg xE) : res (base xE) := match n with O => Err ExcGeneric | _ => Ok (x_base n) end.
Definition x_S (q : request xE) : answer xE := @mkAns xE (repeat 1 (p_n (q_nlp q))) (repeat 0 (List.length (p_g (q_nlp q)))) (repeat 0 (p_n (q_nlp q))) tt.

Lemma x_good : good_solver x_S.
Proof. intros q. cbn. rewrite !repeat_length. auto. Qed.
Lemma x_cons n : consistent (x_base n).
Proof.
  split.
  - apply repeat_length.
  - intros s Hs. apply repeat_spec in Hs. lra.
  - reflexivity.
  - reflexivity.
  - intros i pos. cbn [b_ix x_base]. destruct (Nat.ltb_spec i n); [|discriminate]. intros [= <-]. split; [repeat constructor; auto|]. intros q [<-|[]]. auto.
  - intros d bd w. destruct d; [contradiction|]. intros [<-|[]]. cbn. split; [apply seq_NoDup|]. split; [rewrite seq_length, repeat_length; auto|].
    intros q Hq. apply in_seq in Hq. lia.
Qed.

Definition x_h0 : list (ocall xE) := [OCfg (fun _ => 3%nat : Cfg xE); OBnd (fun _ => Fin 8 : Bnd xE)].
Definition x_h1 : list (ocall xE) :=
  [@OAddCost xE (fun x _ => nth 1 x 0); @OAppCons xE [fun x _ => nth 1 x 0 - nth 0 x 0]; OAppGlb [Fin 1]; OAppGub [PInf]; @OOptx xE Lower 1%nat [Fin (-4)]].
Definition x_h2 : list (ocall xE) := [OP (5 : Prm xE); OSolve; @OOptx xE Upper 1%nat [Fin 6]; OX [1; 2; 3]].
Example C77_nonvacuous : route_ok x_build x_h0 x_h1 x_h2 (x_base 3) /\ (forall c, In c x_h2 -> replacing c = false) /\
  user_cost (b_obj (x_base 3)) x_h1 [3; 7] 5 = 22 /\ extra_cons x_h1 <> [].
Proof.
  split.
  - split.
    + intros c [<-|[<-|[]]]; reflexivity.
    + reflexivity.
    + apply x_cons.
    + split; reflexivity.
    + intros c [<-|[<-|[<-|[<-|[<-|[]]]]]]; cbn; auto.
    + intros c [<-|[<-|[<-|[<-|[]]]]]; cbn; auto.
  - split; [intros c [<-|[<-|[<-|[<-|[]]]]]; reflexivity|]. split; [cbn; lra|discriminate].
Qed.
Example C77_refused_nonvacuous : (forall k, In k x_h0 -> building k = false) /\ accessing (@OAppGlb xE [Fin 1]) = true.
Proof. split; [intros c [<-|[<-|[]]]; reflexivity|reflexivity]. Qed.

(** The lower bound of the added constraints forgotten: create_nlp accepts, every solve raises. *)
Definition x_after (h : list (ocall xE)) : opt xE := run x_build x_S (opt_init xE) h.
Definition x_do (h : list (ocall xE)) (c : ocall xE) : res (option (request xE)) := snd (do x_build x_S (x_after h) c).
Definition x_add : list (ocall xE) := [OPrepare; @OAppCons xE [fun x _ => nth 1 x 0]; OAppGub [Fin 1]].
Theorem C77_forgotten_bound_refuted : x_do x_add OCreate = Ok None /\ x_do (x_add ++ [OCreate]) OSolve = Err ExcGeneric.
Proof. split; reflexivity. Qed.

(** prepare_nlp on an object that is set up: the objective can no longer be changed although constraints can be
    added, and solve raises until create_nlp is called. *)
Definition x_again : list (ocall xE) := [OSetup; OSolve; OPrepare].
Theorem C77_prepare_after_setup_refuted :
  (forall f, x_do x_again (OAddCost f) = Err ExcAssertion) /\ (forall g, x_do x_again (OAppCons [g]) = Ok None) /\ x_do x_again OSolve = Err ExcGeneric.
Proof. split; [|split]; reflexivity. Qed.

(** A vector assigned to nlp_cons_lb before create_nlp: create_nlp raises, and a second attempt with the list
    restored raises too, because the constraints were already replaced. *)
Definition x_vec : list (ocall xE) := [OPrepare; OGlb (CVec [Fin 0; Fin 0])].
Theorem C77_vector_before_create_refuted :
  x_do x_vec OCreate = Err ExcGeneric /\ x_do (x_vec ++ [OCreate; OGlb (CList [[Fin 0; Fin 0]])]) OCreate = Err ExcGeneric.
Proof. split; reflexivity. Qed.

(** ** C78 *)
Example C78_nonvacuous : route_ok x_build x_h0 x_h1 ([OP (5 : Prm xE); OSolve] ++ @OOptx xE Upper 1%nat [Fin 6] :: [OX [1; 2; 3]]) (x_base 3) /\
  b_ix (x_base 3) (1%nat : Ix xE) = Ok [1%nat] /\ direct_values [1%nat] [Fin 6] = Some [(1%nat, Fin 6)] /\ nth_error (b_scal (x_base 3)) 1 = Some 2.
Proof. split; [exact (proj1 C77_nonvacuous)|]. cbn. auto. Qed.
(** The custom upper bound 6 of entry 1 is lost, and the ordinary bound 8 is back, after an assignment to bounds that changes nothing. *)
Definition x_lost : list (ocall xE) := x_h0 ++ [OSetup; @OOptx xE Upper 1%nat [Fin 6]].
Theorem C78_overwritten_refuted :
  (forall r, ok_side Upper (nth 1 (o_ub (x_after x_lost)) MInf) r <-> r * 2 <= 6) /\
  (forall r, ok_side Upper (nth 1 (o_ub (x_after (x_lost ++ [OBnd (fun b => b)]))) MInf) r <-> r * 2 <= 8).
Proof. split; intros r; cbn; split; lra. Qed.
(** Writing back what was read changes the bound. *)
Theorem C78_read_write_refuted : get_optx (x_after x_lost) Upper (1%nat : Ix xE) = Ok [Fin (6 / 2)] /\ Fin (6 / 2) <> Fin 6 /\
  forall r, ok_side Upper (nth 1 (o_ub (fst (do x_build x_S (x_after x_lost) (@OOptx xE Upper 1%nat [Fin (6 / 2)])))) MInf) r <-> r * 2 <= 3.
Proof. split; [reflexivity|]. split; [intros [= H]; lra|]. intros r. cbn. split; lra. Qed.

(** ** C79 *)
(** Every configuration gives two variables; only the ordinary bound and the objective differ. *)
Definition y_build (n : Cfg xE) : res (base xE) := let b := x_base 2 in
  Ok (@mkBase xE 2 (b_scal b) (b_ix b) (fun x p => INR (n : nat) * nth 0 x 0) (b_g b) (b_glb b) (b_gub b) (b_ord b)).
Definition y_h : list (ocall xE) := [OSetup; OSolve; OCfg (fun _ => 7%nat : Cfg xE); OBnd (fun _ => Fin 8 : Bnd xE)].
Example C79_nonvacuous : (forall c b, y_build c = Ok b -> b_n b = 2%nat /\ List.length (concat (b_g b)) = 2%nat) /\ (forall c, In c y_h -> adding c = false) /\
  exists b, y_build (user_cfg (cfg0 xE) y_h) = Ok b /\ consistent b /\ b_obj b [1] 0 = INR 7 * 1.
Proof.
  split; [intros c b [= <-]; auto|]. split; [intros c [<-|[<-|[<-|[<-|[]]]]]; reflexivity|]. eexists. split; [reflexivity|].
  split; [|reflexivity]. destruct (x_cons 2). split; assumption.
Qed.
(** A configuration of another size: setup accepts, solve raises because of the multipliers of the previous problem. *)
Theorem C79_other_size_refuted : let h := [OSetup; OSolve; OCfg (fun _ => 3%nat : Cfg xE)] in
  x_do h OSetup = Ok None /\ x_do (h ++ [OSetup]) OSolve = Err ExcGeneric /\ (exists q, x_do [OCfg (fun _ => 3%nat : Cfg xE); OSetup] OSolve = Ok (Some q)).
Proof. split; [reflexivity|]. split; [reflexivity|]. eexists. reflexivity. Qed.
Example C79_compile_nonvacuous : o_setup (x_after [OSetup]) = true.
Proof. reflexivity. Qed.
Print Assumptions C77_forgotten_bound_refuted.
Print Assumptions C77_prepare_after_setup_refuted.
Print Assumptions C77_vector_before_create_refuted.
Print Assumptions C78_overwritten_refuted.
Print Assumptions C78_read_write_refuted.
Print Assumptions C79_other_size_refuted.
