(** * C82-C86 on a concrete model: two states (one of two entries, with process noise), an input, an algebraic
    state, a parameter, a time-varying parameter, an auxiliary expression and two measurements. *)
From Verif Require Import Base DataModel MdlModel MdlSpec MdlProofs MdlProps SymModel SymSpec SymProofs SymProofs2 SymProofs3 SymProps.
Import List.
Local Open Scope string_scope.

Definition zop (k : nat) (a b : Z) : Z := match k with 0 => (a + b)%Z | 1 => (a * b)%Z | _ => (a - b)%Z end.
Fixpoint nodupb (l : list string) : bool :=
  match l with [] => true | n :: l' => negb (existsb (String.eqb n) l') && nodupb l' end.
Lemma nodupb_nodup : forall l, NoDup l -> nodupb l = true.
Proof.
  induction l as [|n l IH]; intros H; [reflexivity|]. inversion H as [|? ? NI ND]; subst. cbn. rewrite (IH ND), andb_true_r.
  destruct (existsb (String.eqb n) l) eqn:Q; [|reflexivity]. apply existsb_exists in Q. destruct Q as (x & Hx & E). apply String.eqb_eq in E. subst. contradiction.
Qed.
Definition rs (m : model (ex Z)) : model (ex Z) * res unit := (m, Err ExcGeneric).
Notation v k n i := (Sy Z (Own 0 (SpK k) n i)).
Definition times := Op Z 1.
Definition add := Op Z 0.
Definition minus := Op Z 2.

Definition demo : list (decl (ex Z)) :=
  [DVar "_x" "a" 2; DVar "states" "b" 1; DVar "_u" "u" 1; DVar "_z" "z" 1; DVar "_p" "p" 1; DVar "_tvp" "q" 1;
   DRhs "a" [times (v Kx "a" 1) (v Ku "u" 0); add (v Kx "b" 0) (v Kz "z" 0)] true;
   DRhs "b" [add (v Kp "p" 0) (v Ktvp "q" 0)] false;
   DAlg "g" [minus (v Kz "z" 0) (v Kx "a" 0)];
   DExpr "power" [times (v Ku "u" 0) (v Ku "u" 0)];
   DMeas "m" [v Kx "a" 0; v Kx "a" 1] true; DMeas "k" [v Ku "u" 0] false].
Definition demo_model : model (ex Z) := fold_left (decl_run (ex Z) (Op Z 0) (noise_sym Z)) demo (model_init (ex Z) (Cst Z 0%Z)).
Definition demo_val : values (V := Z) := fun sp n i =>
  (match sp with SpK Kx => if String.eqb n "a" then 2 + Z.of_nat i else 5 | SpK Ku => 7 | SpK Kz => 11 | SpK Kp => 13 | SpK Ktvp => 17
   | SpW => 100 + Z.of_nat i | SpV => 1000 + Z.of_nat i end)%Z.
Definition demo_env (g : nat) (y : sym) : Z := match y with Own g' sp n i => if Nat.eqb g g' then demo_val sp n i else (-1)%Z | Foreign _ => (-2)%Z end.

Lemma demo_good : Forall good demo.
Proof.
  unfold demo. repeat constructor; cbn; try discriminate; try (eexists (ltac:(match goal with |- kind => exact Kx end)); reflexivity);
  first [exists Kx; reflexivity|exists Ku; reflexivity|exists Kz; reflexivity|exists Kp; reflexivity|exists Ktvp; reflexivity].
Qed.
Lemma demo_user : user_history demo.
Proof.
  split.
  - intros d e g s n i Hd He Hs. cbn in Hd. repeat (destruct Hd as [<-|Hd]); try contradiction; cbn in He;
      repeat (destruct He as [<-|He]); try contradiction; cbn in Hs; repeat (destruct Hs as [Hs|Hs]); try discriminate; contradiction.
  - split; repeat constructor; cbn; intuition discriminate.
Qed.
Lemma demo_means g : means (demo_env g) g demo_val.
Proof. intros s n i. cbn. rewrite Nat.eqb_refl. reflexivity. Qed.
Definition demo_sys (t : symtype) := sys_setup Z 0%Z nodupb rs t demo_model.

(** The hypotheses of C82 are met, and the values are as the user would compute them: a0' = 3*7+100,
    a1' = 5+11+101, b' = 13+17; 0 = 11-2; u*u = 49; the measurements a+noise and u. *)
Example C82_nonvacuous : Forall good demo /\ user_history demo /\ means (demo_env 0) 0 demo_val /\
  exists s, demo_sys MX = Ok s /\
    call Z zop 0%Z (rhs_fun Z (s_funs Z s)) (columns demo demo_val rhs_args) = Ok [121; 117; 30]%Z /\
    call Z zop 0%Z (alg_fun Z (s_funs Z s)) (columns demo demo_val rhs_args) = Ok [9]%Z /\
    call Z zop 0%Z (aux_fun Z (s_funs Z s)) (columns demo demo_val x_u_z_tvp_p) = Ok [0; 49]%Z /\
    call Z zop 0%Z (meas_fun Z (s_funs Z s)) (columns demo demo_val meas_args) = Ok [1002; 1004; 7]%Z /\
    map (eval Z zop (demo_env 1)) (entries (a_rhs (s_asm Z s))) = [121; 117; 30]%Z.
Proof.
  split; [exact demo_good|]. split; [exact demo_user|]. split; [apply demo_means|].
  destruct (demo_sys MX) as [s|] eqn:E; [|vm_compute in E; discriminate].
  exists s. split; [reflexivity|].
  destruct (C82_functions zop 0%Z nodupb rs MX demo s demo_good demo_user E demo_val (demo_env 0) (demo_means 0)) as (A & B & C & D).
  rewrite A, B, C, D.
  destruct (C82_expressions zop 0%Z nodupb rs MX demo s demo_good demo_user E demo_val (demo_env 0) (demo_env 1) (demo_means 0) (demo_means 1)) as (F & _).
  rewrite F. vm_compute. tauto.
Qed.

(** C83: the same model with measurement noise in a right-hand side, with a symbol of model.y in an auxiliary
    expression, with the noise of an equation in an algebraic equation (accepted). *)
Definition with_extra (d : decl (ex Z)) := sys_setup Z 0%Z nodupb rs SX (fold_left (decl_run (ex Z) (Op Z 0) (noise_sym Z)) (demo ++ [d])%list (model_init (ex Z) (Cst Z 0%Z))).
Example C83_nonvacuous :
  is_ok (demo_sys SX) = true /\
  is_ok (with_extra (DRhs "b" [Sy Z (Own 0 SpV "m_noise" 0)] false)) = false /\
  is_ok (with_extra (DExpr "e" [Sy Z (Foreign 3)])) = false /\
  is_ok (with_extra (DExpr "e" [Sy Z (Own 0 SpW "a_noise" 0)])) = false /\
  is_ok (with_extra (DExpr "e" [times (v Kx "a" 1) (v Kz "z" 0)])) = true.
Proof. vm_compute. tauto. Qed.

(** The hypotheses of C83_setup_succeeds are met by the model. *)
Example C83_succeeds_nonvacuous : exists s, demo_sys SX = Ok s.
Proof.
  unfold demo_sys, demo_model. apply (C83_setup_succeeds zop 0%Z nodupb rs nodupb_nodup SX demo demo_good).
  - intros v Hv. cbn in Hv. destruct Hv as [<-|[<-|[]]]; eexists; reflexivity.
  - reflexivity.
  - intros n e b s Hc Hs. cbn in Hc, Hs. destruct Hc as [Hc|[Hc|[]]]; injection Hc as <- <- <-; destruct Hs as [Hs|[Hs|[]]]; try discriminate; injection Hs as <-; cbn; auto.
  - repeat constructor; cbn; intuition discriminate.
  - repeat constructor; cbn; intuition discriminate.
  - discriminate.
  - repeat constructor; cbn; intuition discriminate.
  - repeat constructor; cbn; intuition discriminate.
  - intros n e b x y Hc Hx Hy. cbn in Hc. destruct Hc as [Hc|[Hc|[]]]; injection Hc as <- <- <-; cbn in Hx;
      repeat (destruct Hx as [<-|Hx]); try contradiction; cbn in Hy; repeat (destruct Hy as [<-|Hy]); try contradiction; unfold declared_in;
      do 3 eexists; (first [exists 1; split; [reflexivity|split; [cbn; tauto|split; [cbn; tauto|lia]]]|exists 2; split; [reflexivity|split; [cbn; tauto|split; [cbn; tauto|lia]]]]).
  - intros n e x y Hc Hx Hy. cbn in Hc. destruct Hc as [Hc|[]]; injection Hc as <- <-; cbn in Hx;
      repeat (destruct Hx as [<-|Hx]); try contradiction; cbn in Hy; repeat (destruct Hy as [<-|Hy]); try contradiction; unfold declared_in;
      do 3 eexists; (first [exists 1; split; [reflexivity|split; [cbn; tauto|split; [cbn; tauto|lia]]]|exists 2; split; [reflexivity|split; [cbn; tauto|split; [cbn; tauto|lia]]]]).
  - intros n e x y Hc Hx Hy. cbn in Hc. destruct Hc as [Hc|[]]; injection Hc as <- <-; cbn in Hx;
      repeat (destruct Hx as [<-|Hx]); try contradiction; cbn in Hy; repeat (destruct Hy as [<-|Hy]); try contradiction; unfold declared_in;
      do 3 eexists; (first [exists 1; split; [reflexivity|split; [cbn; tauto|split; [cbn; tauto|lia]]]|exists 2; split; [reflexivity|split; [cbn; tauto|split; [cbn; tauto|lia]]]]).
  - intros n e b x y Hc Hx Hy. cbn in Hc. destruct Hc as [Hc|[Hc|[]]]; injection Hc as <- <- <-; cbn in Hx;
      repeat (destruct Hx as [<-|Hx]); try contradiction; cbn in Hy; repeat (destruct Hy as [<-|Hy]); try contradiction; unfold declared_in;
      do 3 eexists; (first [exists 1; split; [reflexivity|split; [cbn; tauto|split; [cbn; tauto|lia]]]|exists 2; split; [reflexivity|split; [cbn; tauto|split; [cbn; tauto|lia]]]]).
Qed.

(** C84: after setup the variable returned by set_variable('_x','a') can be used, an expression of the old
    symbols cannot. *)
Example C84_nonvacuous : exists s, demo_sys SX = Ok s /\ In ("a", 2) (declared Kx demo) /\
  let now := deref Z (substitute_exported (var_dicts Z (s_decl Z s)) heap0) (s_decl Z s) (Exported Z Kx "a") in
  List.length now = 2 /\ is_ok (mk_fun Z (structs s [SpK Kx]) now) = true /\
  is_ok (mk_fun Z (structs s [SpK Kx]) [times (v Kx "a" 0) (v Kx "a" 1)]) = false.
Proof.
  destruct (demo_sys SX) as [s|] eqn:E; [|vm_compute in E; discriminate]. exists s. split; [reflexivity|]. split; [cbn; tauto|].
  vm_compute in E. injection E as <-. vm_compute. tauto.
Qed.

(** C85: two round trips. *)
Example C85_nonvacuous : exists s s', demo_sys SX = Ok s /\ pickles 0%Z [(fun _ => 0); (fun _ => 1)] s = Ok s' /\ s_gen Z s' = 3 /\
  map (eval Z zop (demo_env 3)) (entries (a_rhs (s_asm Z s'))) = [121; 117; 30]%Z /\
  is_ok (mk_fun Z (structs s' rhs_args) (entries (a_rhs (s_asm Z s)))) = false.
Proof.
  destruct (demo_sys SX) as [s|] eqn:E; [|vm_compute in E; discriminate]. vm_compute in E. injection E as <-.
  eexists _, _. split; [reflexivity|]. split; [vm_compute; reflexivity|]. vm_compute. tauto.
Qed.

(** C86: an object for every attribute. *)
Definition demo_attr (n : string) : res string := if existsb (String.eqb n) documented_attrs then Ok ("model." ++ n) else Err ExcAttribute.
Example C86_nonvacuous :
  getitem string demo_attr (ITuple ["x"; "u"; "z"]) = Ok (Many string ["model.x"; "model.u"; "model.z"]) /\
  getitem string demo_attr (ITuple ["x"; "v"]) = Err ExcAssertion /\
  getitem string demo_attr (IName "v") = Ok (One string "model.v").
Proof. vm_compute. tauto. Qed.

Print Assumptions C82_functions.
Print Assumptions C82_expressions.
Print Assumptions C82_nonvacuous.
Print Assumptions C83_only_declared.
Print Assumptions C83_setup_succeeds.
Print Assumptions C83_nonvacuous.
Print Assumptions C83_succeeds_nonvacuous.
Print Assumptions C84_before_setup.
Print Assumptions C84_exported_partial.
Print Assumptions C84_accepted.
Print Assumptions C84_stale_refuted.
Print Assumptions C84_nonvacuous.
Print Assumptions C85_pickle.
Print Assumptions C85_refused.
Print Assumptions C85_nonvacuous.
Print Assumptions C86_single.
Print Assumptions C86_tuple_partial.
Print Assumptions C86_tuple_only.
Print Assumptions C86_v_refuted.
Print Assumptions C86_nonvacuous.
