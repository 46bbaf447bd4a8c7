(** * Theorems about default_plot: C87. *)
From Coq Require Import ZArith Lia.
From Verif Require Import Base StructModel GfxModel GfxSpec GfxProofs2.
Set Implicit Arguments.
Local Open Scope string_scope.

Section T.
  Variable T : Type.
  Variable tadd : T -> nat -> T -> T.
  Variable zero : T.
  Notation run := (run tadd zero).

  (** Which names are to be plotted: the ones given (no repetitions, all known), or all of that kind. *)
  Definition selects (all : list string) (given : option (list string)) (sel : list string) : Prop :=
    match given with None => sel = all | Some l => sel = l /\ NoDup l /\ incl l all end.

  (** The data object has the variable and, if predictions are drawn too, its predictions. *)
  Definition recorded (d : gdata T) (vn : string * string) : Prop :=
    exists cols, d_cols d (fst vn) (snd vn) = Some cols
      /\ (d_dtype_mpc d = true -> d_full d = true -> forall i, i < Nat.max 1 (List.length cols) -> d_pred d (fst vn) (snd vn) i (-1) <> None).

  Definition of_kind (v : string) (l : list string) : list (string * string) := map (fun n => (v, n)) l.

  Lemma add_pred_canvas d v n : forall is (g g' : gfx T), add_pred zero d v n is g = (g', Ok tt) ->
    exists new, g_canvas g' = (g_canvas g ++ new)%list.
  Proof.
    induction is as [|i is IH]; intros g g' H; cbn [add_pred] in H; [injection H as <-; exists []; now rewrite app_nil_r|].
    destruct (d_pred d v n i (-1)) as [scen|]; [|discriminate]. unfold plot in H. apply IH in H. destruct H as (new & E). cbn [g_canvas] in E.
    eexists. rewrite E, <- app_assoc. reflexivity.
  Qed.
  Lemma add_pred_ok d v n : forall is (g : gfx T), (forall i, In i is -> d_pred d v n i (-1) <> None) -> exists g', add_pred zero d v n is g = (g', Ok tt).
  Proof.
    induction is as [|i is IH]; intros g H; cbn [add_pred]; [eauto|].
    destruct (d_pred d v n i (-1)) as [scen|] eqn:E; [|exfalso; apply (H i (or_introl eq_refl) E)]. unfold plot. apply IH. intros j Hj. apply H. now right.
  Qed.
  Lemma add_line_ok d v n (g : gfx T) : plotted v = true -> recorded d (v, n) ->
    exists g' cols new, add_line zero d v n g = (g', Ok tt) /\ d_cols d v n = Some cols
      /\ g_canvas g' = (g_canvas g ++ map (fun c => (d_time d, c)) cols ++ new)%list.
  Proof.
    intros Hv (cols & Hc & Hp). cbn [fst snd] in *. unfold add_line. rewrite vt, Hv, Hc. cbn [negb]. unfold plot.
    destruct (d_dtype_mpc d && d_full d)%bool eqn:Q.
    - apply andb_true_iff in Q. destruct Q as [Q1 Q2]. specialize (Hp Q1 Q2).
      destruct (d_pred d v n 0 (-1)) eqn:E0; [|exfalso; apply (Hp 0); [lia|exact E0]].
      match goal with |- context [add_pred zero d v n ?is ?g0] => destruct (add_pred_ok d v n is g0) as (g' & Eg) end.
      { intros i Hi. apply in_seq in Hi. apply Hp. lia. }
      pose proof (add_pred_canvas _ _ _ _ _ Eg) as (new & En). cbn [g_canvas] in En. exists g', cols, new. split; [exact Eg|]. split; [reflexivity|].
      rewrite En, <- app_assoc. reflexivity.
    - eexists _, cols, []. split; [reflexivity|]. split; [reflexivity|]. cbn [g_canvas]. now rewrite app_nil_r.
  Qed.

  Lemma draw_ok d : forall l (g : gfx T), (forall vn, In vn l -> plotted (fst vn) = true /\ recorded d vn) ->
    exists g' axs, draw zero d l g = (g', axs, Ok tt)
      /\ g' = fold_left (step tadd zero) (map (fun vn => AAdd d (fst vn) (snd vn)) l) g
      /\ (exists new, g_canvas g' = (g_canvas g ++ new)%list)
      /\ map fst axs = map snd l
      /\ List.concat (map snd axs) = seq (List.length (g_canvas g)) (List.length (g_canvas g') - List.length (g_canvas g))
      /\ forall i v n, nth_error l i = Some (v, n) ->
           exists cols ids, d_cols d v n = Some cols /\ nth_error axs i = Some (n, ids)
             /\ forall j c, nth_error cols j = Some c -> exists id, nth_error ids j = Some id /\ shows g' id (d_time d) c.
  Proof.
    induction l as [|[v n] l IH]; intros g H.
    - exists g, []. cbn. split; [reflexivity|]. split; [reflexivity|]. split; [exists []; now rewrite app_nil_r|]. split; [reflexivity|]. split; [rewrite Nat.sub_diag; reflexivity|].
      intros [|i] v n E; discriminate.
    - destruct (H (v, n) (or_introl eq_refl)) as [Hv Hr]. cbn [fst] in Hv.
      destruct (add_line_ok g Hv Hr) as (g1 & cols & new1 & E1 & Ec & En1).
      destruct (IH g1 (fun vn Hn => H vn (or_intror Hn))) as (g2 & axs & E2 & Er & (new2 & En2) & Em & Es & Ea).
      exists g2, ((n, seq (List.length (g_canvas g)) (List.length (g_canvas g1) - List.length (g_canvas g))) :: axs).
      cbn [draw]. rewrite E1, E2. split; [reflexivity|]. split; [cbn [map fold_left fst snd step]; rewrite E1; exact Er|].
      split; [exists ((map (fun c => (d_time d, c)) cols ++ new1) ++ new2)%list; rewrite En2, En1, <- !app_assoc; reflexivity|].
      split; [cbn [map fst snd]; now rewrite Em|].
      assert (L1 : List.length (g_canvas g1) = List.length (g_canvas g) + List.length cols + List.length new1) by (rewrite En1, !app_length, map_length; lia).
      assert (L2 : List.length (g_canvas g2) = List.length (g_canvas g1) + List.length new2) by (rewrite En2, app_length; lia).
      split.
      { cbn [map List.concat snd]. rewrite Es.
        replace (List.length (g_canvas g2) - List.length (g_canvas g)) with ((List.length (g_canvas g1) - List.length (g_canvas g)) + (List.length (g_canvas g2) - List.length (g_canvas g1))) by lia.
        rewrite seq_app. f_equal. f_equal. lia. }
      intros [|i] v' n' E; [|exact (Ea i v' n' E)].
      cbn in E. injection E as <- <-. exists cols, (seq (List.length (g_canvas g)) (List.length (g_canvas g1) - List.length (g_canvas g))).
      split; [exact Ec|]. split; [reflexivity|]. intros j c Hj. exists (List.length (g_canvas g) + j).
      assert (Hlt : j < List.length cols) by (apply nth_error_Some; congruence).
      split.
      + rewrite (nth_error_nth' _ 0) by (rewrite seq_length; lia). f_equal. apply seq_nth. lia.
      + unfold shows. rewrite En2, En1, <- !app_assoc. rewrite nth_error_app2 by lia.
        replace (List.length (g_canvas g) + j - List.length (g_canvas g)) with j by lia.
        rewrite nth_error_app1 by (rewrite map_length; lia). now rewrite nth_error_map, Hj.
  Qed.

  Lemma subset_incl l k : subset l k = true <-> incl l k.
  Proof.
    unfold subset. rewrite forallb_forall. split.
    - intros H n Hn. specialize (H n Hn). apply existsb_exists in H. destruct H as (x & Hx & E). apply String.eqb_eq in E. now subst.
    - intros H n Hn. apply existsb_exists. exists n. split; [exact (H n Hn)|apply String.eqb_refl].
  Qed.

  (** ** C87: default_plot draws, for all variables of the model or for the given subset, one axis per
      variable in the documented order (states, algebraic states, inputs, auxiliary expressions), labelled
      with its name; axis i carries exactly the lines of its variable, and line j of them shows the recorded
      values of element j against time.  The Graphics object is the one obtained by adding these lines one
      by one, each once, so that what C53 says of later plots applies.
      Partial: a list of algebraic states cannot be given (see C87_dae_states_refuted); only all or none. *)
  Theorem C87_default_plot_partial : forall d keys xs zs us aux states daes inputs auxs sx sz su sa,
    keys "_x" = xs -> keys "_z" = "default" :: zs -> keys "_u" = "default" :: us -> keys "_aux" = "default" :: aux ->
    NoDup xs -> NoDup zs -> NoDup us -> NoDup aux ->
    selects xs states sx -> selects us inputs su -> selects aux auxs sa ->
    (daes = None /\ sz = zs \/ daes = Some [] /\ sz = []) ->
    let all := (of_kind "_x" sx ++ of_kind "_z" sz ++ of_kind "_u" su ++ of_kind "_aux" sa)%list in
    all <> [] -> (forall vn, In vn all -> recorded d vn) ->
    exists g axs, default_plot zero d keys states daes inputs auxs = Ok (g, axs)
      /\ map fst axs = map snd all
      /\ List.concat (map snd axs) = seq 0 (List.length (g_canvas g))
      /\ (forall i v n, nth_error all i = Some (v, n) ->
           exists cols ids, d_cols d v n = Some cols /\ nth_error axs i = Some (n, ids)
             /\ forall j c, nth_error cols j = Some c -> exists id, nth_error ids j = Some id /\ shows g id (d_time d) c)
      /\ (let h := map (fun vn => AAdd d (fst vn) (snd vn)) all in g = run h /\ NoDup (added h) /\ added h = all).
  Proof.
    intros d keys xs zs us aux states daes inputs auxs sx sz su sa Kx Kz Ku Ka Nx Nz Nu Na Sx Su Sa Sz all Hne Hr.
    assert (PK : forall vn, In vn all -> plotted (fst vn) = true).
    { intros vn H. unfold all, of_kind in H. rewrite !in_app_iff, !in_map_iff in H.
      destruct H as [(n & <- & _)|[(n & <- & _)|[(n & <- & _)|(n & <- & _)]]]; reflexivity. }
    destruct (draw_ok (d := d) all (gfx_init T) (fun vn H => conj (PK vn H) (Hr vn H))) as (g & axs & E & Er & _ & Em & Es & Ea).
    exists g, axs. unfold default_plot. rewrite Kx, Kz, Ku, Ka.
    assert (CX : choose xs xs false states = Ok sx).
    { unfold choose. destruct states as [l|]; [|rewrite Sx; reflexivity]. destruct Sx as (-> & _ & I). apply subset_incl in I. rewrite I. reflexivity. }
    assert (CZ : choose ("default" :: zs) ("default" :: us) true daes = Ok sz) by (destruct Sz as [[-> ->]|[-> ->]]; reflexivity).
    assert (CU : choose ("default" :: us) ("default" :: us) true inputs = Ok su).
    { unfold choose. destruct inputs as [l|]; [|rewrite Su; reflexivity]. destruct Su as (-> & _ & I). rewrite (proj2 (subset_incl l ("default" :: us))); [reflexivity|].
      intros n Hn. right. exact (I n Hn). }
    assert (CA : choose ("default" :: aux) ("default" :: aux) true auxs = Ok sa).
    { unfold choose. destruct auxs as [l|]; [|rewrite Sa; reflexivity]. destruct Sa as (-> & _ & I). rewrite (proj2 (subset_incl l ("default" :: aux))); [reflexivity|].
      intros n Hn. right. exact (I n Hn). }
    rewrite CX, CZ, CU, CA. cbn [bind].
    replace (Nat.eqb (List.length sx + List.length su + List.length sa + List.length sz) 0) with false.
    2:{ symmetry. apply Nat.eqb_neq. intros Q. apply Hne. unfold all. destruct sx, sz, su, sa; cbn in Q; try lia. reflexivity. }
    match goal with |- context [draw zero d ?l _] => change l with all end. rewrite E.
    split; [reflexivity|]. split; [exact Em|]. split; [rewrite Es; cbn [gfx_init g_canvas List.length]; now rewrite Nat.sub_0_r|]. split; [exact Ea|].
    cbv zeta. assert (EA : added (map (fun vn => AAdd d (fst vn) (snd vn)) all) = all).
    { clear -PK Hr. unfold added. induction all as [|[v n] l IH]; [reflexivity|]. cbn [map flat_map act_vars fst snd].
      pose proof (PK (v, n) (or_introl eq_refl)) as P1. cbn [fst] in P1. rewrite P1.
      destruct (Hr (v, n) (or_introl eq_refl)) as (cols & C & _). cbn [fst snd] in C. rewrite C. cbn [app]. rewrite IH; [reflexivity| |];
        intros vn H; [apply Hr|apply PK]; now right. }
    rewrite EA. split; [exact Er|]. split; [|reflexivity].
    assert (ND : forall a s g0, NoDup a -> selects a g0 s -> NoDup s).
    { intros a s [l|] Na' Q; cbn in Q; [destruct Q as (-> & Q & _); exact Q|now subst]. }
    assert (NK : forall v l, NoDup l -> NoDup (of_kind v l)).
    { intros v l H. unfold of_kind. apply FinFun.Injective_map_NoDup; [|exact H]. intros x y Q. congruence. }
    assert (NZ : NoDup sz) by (destruct Sz as [[_ ->]|[_ ->]]; [exact Nz|constructor]).
    assert (DJ : forall (a b : list (string * string)), NoDup a -> NoDup b -> (forall x, In x a -> ~ In x b) -> NoDup (a ++ b)%list).
    { induction a as [|x a IHa]; intros b Pa Pb Pd; [exact Pb|]. inversion Pa; subst. cbn. constructor.
      - rewrite in_app_iff. intros [Q|Q]; [contradiction|]. exact (Pd x (or_introl eq_refl) Q).
      - apply IHa; [assumption|assumption|]. intros y Hy. apply Pd. now right. }
    assert (KD : forall v l x, In x (of_kind v l) -> fst x = v) by (intros v l x Hx; unfold of_kind in Hx; apply in_map_iff in Hx; destruct Hx as (n & <- & _); reflexivity).
    unfold all. apply DJ; [apply NK; exact (ND _ _ _ Nx Sx)| |].
    - apply DJ; [apply NK; exact NZ| |].
      + apply DJ; [apply NK; exact (ND _ _ _ Nu Su)|apply NK; exact (ND _ _ _ Na Sa)|].
        intros x A B. apply KD in A. apply KD in B. congruence.
      + intros x A B. apply KD in A. rewrite in_app_iff in B. destruct B as [B|B]; apply KD in B; congruence.
    - intros x A B. apply KD in A. rewrite !in_app_iff in B. destruct B as [B|[B|B]]; apply KD in B; congruence.
  Qed.

  (** Unknown names are refused. *)
  Theorem C87_unknown_refused : forall d keys states daes inputs auxs n,
    (exists l, states = Some l /\ In n l /\ ~ In n (keys "_x")) \/
    (exists l, inputs = Some l /\ In n l /\ ~ In n (keys "_u")) \/
    (exists l, auxs = Some l /\ In n l /\ ~ In n (keys "_aux")) ->
    exists e, default_plot zero d keys states daes inputs auxs = Err e.
  Proof.
    intros d keys states daes inputs auxs n H.
    assert (C : forall own allowed pop l, In n l -> ~ In n allowed -> choose own allowed pop (Some l) = Err ExcAssertion).
    { intros own allowed pop l A B. unfold choose. destruct (subset l allowed) eqn:Q; [|reflexivity]. apply subset_incl in Q. exfalso. exact (B (Q n A)). }
    unfold default_plot. destruct H as [(l & -> & A & B)|[(l & -> & A & B)|(l & -> & A & B)]].
    - rewrite (C _ _ _ _ A B). cbn [bind]. eauto.
    - destruct (choose (keys "_x") (keys "_x") false states); cbn [bind]; [|eauto]. destruct (choose (keys "_z") (keys "_u") true daes); cbn [bind]; [|eauto].
      rewrite (C _ _ _ _ A B). cbn [bind]. eauto.
    - destruct (choose (keys "_x") (keys "_x") false states); cbn [bind]; [|eauto]. destruct (choose (keys "_z") (keys "_u") true daes); cbn [bind]; [|eauto].
      destruct (choose (keys "_u") (keys "_u") true inputs); cbn [bind]; [|eauto]. rewrite (C _ _ _ _ A B). cbn [bind]. eauto.
  Qed.

  (** False of the code: the documented list of algebraic states.  Every request for an algebraic state is
      refused unless an input has the same name. *)
  Theorem C87_dae_states_refuted : forall d keys inputs auxs n l, In n l -> In n (keys "_z") -> ~ In n (keys "_u") ->
    default_plot zero d keys None (Some l) inputs auxs = Err ExcAssertion.
  Proof.
    intros d keys inputs auxs n l A _ B. unfold default_plot. cbn [choose bind].
    destruct (subset l (keys "_u")) eqn:Q; [|reflexivity]. apply subset_incl in Q. exfalso. exact (B (Q n A)).
  Qed.
End T.

(** A model with two states (one with two elements), an algebraic state, an input and an expression. *)
Definition plot_data : gdata nat :=
  mkD [0; 1; 2] (fun v n =>
    if String.eqb v "_x" then (if String.eqb n "a" then Some [[1; 2; 3]; [4; 5; 6]] else if String.eqb n "b" then Some [[7; 8; 9]] else None)
    else if String.eqb v "_z" then (if String.eqb n "z" then Some [[10; 11; 12]] else None)
    else if String.eqb v "_u" then (if String.eqb n "u" then Some [[13; 14; 15]] else None)
    else if String.eqb v "_aux" then (if String.eqb n "cost" then Some [[16; 17; 18]] else None) else None)
    false false 1 (fun _ _ _ _ => None).
Definition plot_keys (v : string) : list string :=
  if String.eqb v "_x" then ["a"; "b"] else if String.eqb v "_z" then ["default"; "z"]
  else if String.eqb v "_u" then ["default"; "u"] else if String.eqb v "_aux" then ["default"; "cost"] else [].

Example C87_nonvacuous :
  (exists g, default_plot 0 plot_data plot_keys None None None None = Ok (g, [("a", [0; 1]); ("b", [2]); ("z", [3]); ("u", [4]); ("cost", [5])])
     /\ shows g 1 [0; 1; 2] [4; 5; 6] /\ shows g 3 [0; 1; 2] [10; 11; 12])
  /\ (exists g, default_plot 0 plot_data plot_keys (Some ["b"]) (Some []) None (Some []) = Ok (g, [("b", [0]); ("u", [1])]))
  /\ default_plot 0 plot_data plot_keys None (Some ["z"]) None None = Err ExcAssertion
  /\ (exists e, default_plot 0 plot_data plot_keys None (Some ["u"]) None None = Err e).
Proof.
  split; [|split; [|split]].
  - eexists. split; [vm_compute; reflexivity|]. split; reflexivity.
  - eexists. vm_compute. reflexivity.
  - reflexivity.
  - eexists. vm_compute. reflexivity.
Qed.
(** The hypotheses of C87_default_plot_partial for this model. *)
Example C87_hypotheses_nonvacuous :
  let all := (of_kind "_x" ["a"; "b"] ++ of_kind "_z" ["z"] ++ of_kind "_u" ["u"] ++ of_kind "_aux" ["cost"])%list in
  (forall vn, In vn all -> recorded plot_data vn) /\ NoDup ["a"; "b"] /\ selects ["a"; "b"] (Some ["b"]) ["b"].
Proof.
  cbv zeta. split; [|split].
  - intros vn H. cbn in H. repeat (destruct H as [<-|H]); try contradiction; eexists; (split; [reflexivity|discriminate]).
  - repeat constructor; cbn; intuition discriminate.
  - cbn. split; [reflexivity|]. split; [repeat constructor; intros []|]. intros n [<-|[]]. right. now left.
Qed.

Print Assumptions C87_default_plot_partial.
Print Assumptions C87_unknown_refused.
Print Assumptions C87_dae_states_refuted.
Print Assumptions C87_nonvacuous.
Print Assumptions C87_hypotheses_nonvacuous.
