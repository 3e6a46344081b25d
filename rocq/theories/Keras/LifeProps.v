(** C106 to C108: loading a saved Keras model, the life of the optimizer, and its saved state. *)
From Coq Require Import String Ascii.
From Coq Require Import QArith List Arith Bool Permutation.
From Verif.Base Require Import Py.
From Verif.Keras Require Import Config ConfigProps Life LifeSpec LifeProofs LoadProofs.
Import ListNotations.
Local Open Scope string_scope.

(* ------------------------------------------------------------------------ *)
(** * C106 *)

(** If the architecture can be read, a file given by its path is closed however loading ends, and
    one that the caller opened is left open. *)
Theorem C106_file_closed_partial : forall ml glc cvars uvars sl sf fits path f name g g' r op,
  load_model ml glc cvars uvars sl sf fits path f name g = (g', r, op) ->
  (exists m, f_model f = Ok m) -> op = negb path.
Proof.
  intros ml glc cvars uvars sl sf fits path f name g g' r op H [m M]. unfold load_model in H. rewrite M in H.
  destruct (load_compiled _ _ _ _ _ _ _ f m name g). now injection H as _ _ <-.
Qed.
Print Assumptions C106_file_closed_partial.

(** The property as stated fails: if the architecture cannot be read, the file stays open. *)
Theorem C106_file_closed_refuted : forall ml glc cvars uvars sl sf fits f name g e,
  f_model f = Raise e -> load_model ml glc cvars uvars sl sf fits true f name g = (g, Raise e, true).
Proof. intros. unfold load_model. now rewrite H. Qed.
Print Assumptions C106_file_closed_refuted.

(** A model that was saved without an optimizer is refused and leaves no trace. *)
Theorem C106_not_compiled : forall ml glc cvars uvars sl sf fits path f name g m,
  f_model f = Ok m -> f_config f = None ->
  load_model ml glc cvars uvars sl sf fits path f name g = (g, Raise ValueError, negb path).
Proof. intros. unfold load_model, load_compiled. now rewrite H, H0. Qed.
Print Assumptions C106_not_compiled.

(** What is returned has an optimizer rebuilt from the saved configuration, with the requested name
    or else the saved one, for the layers of the loaded model with its loss; all variables that were
    created are under this name. *)
Theorem C106_loaded_optimizer_partial : forall ml glc cvars uvars sl sf fits path f name g g' l op,
  load_model ml glc cvars uvars sl sf fits path f name g = (g', Ok l, op) ->
  exists m config loss o n own, f_model f = Ok m /\ f_config f = Some (config, loss) /\
    from_config sl sf config = Ok o /\
    glc m loss = Ok n /\
    s_name (l_state l) =
      match name with
      | None | Some "" => match get config "name" with Some (VStr s) => s | _ => "kfac" end
      | Some x => x
      end /\
    s_layers (l_state l) = Some n /\ l_graph l = g' /\
    g' = (g ++ own)%list /\ forall v, In v own -> under (s_name (l_state l)) v.
Proof. intros. eapply loaded_optimizer. exact H. Qed.
Print Assumptions C106_loaded_optimizer_partial.

(** The property as stated fails for adaptive damping: a model that was saved together with the state
    of such an optimizer can never be loaded. *)
Theorem C106_adaptive_refuted : forall ml glc cvars uvars sl sf fits a o f m loss ws name path g g' r op,
  kfac_init sl sf a = Ok o -> (forall k, In k init_params -> get (k_kwargs a) k = None) -> adapts o ->
  f_model f = Ok m -> f_config f = Some (get_config o, loss) -> f_weights f = Some ws ->
  load_model ml glc cvars uvars sl sf fits path f name g = (g', r, op) -> exists e, r = Raise e.
Proof. intros. eapply adaptive_not_loaded; eassumption. Qed.
Print Assumptions C106_adaptive_refuted.

(** Both cases occur: a plain optimizer is loaded with its state, and an adaptive one, which had been
    training with its batch, is not. *)
Definition a_loss (m : nat) : option pyval := Some (VStr "mse").
Definition a_collection (m : nat) (l : pyval) : res nat := Ok m.
Definition two_vars (n : nat) (kw : dict) : list string := ["kfac/burnin_counter"; "kfac/damping"].
Definition one_slot (i : inner) (g : list string) : list string :=
  if existsb (String.eqb (i_scope i ++ "/kfac/velocity")) g then [] else ["kfac/velocity"].
Definition load_here := load_model a_loss a_collection two_vars one_slot same same
  (fun a b => Nat.eqb (List.length a) (List.length b)).
Example C106_example : exists o l,
  kfac_init same same (plain_args []) = Ok o /\
  load_here true (mkFile (Ok 7%nat) (Some (get_config o, VStr "mse")) (Some ["a"; "b"; "c"; "d"])) (Some "opt2") ["w"] =
    (["w"; "opt2/iter"; "opt2/tf_vars/kfac/burnin_counter"; "opt2/tf_vars/kfac/damping"; "opt2/tf_vars/kfac/velocity"],
     Ok l, false) /\ l_restored l = true.
Proof. eexists. eexists. split; [vm_compute; reflexivity|]. split; vm_compute; reflexivity. Qed.
Example C106_example_adaptive : exists o kw,
  kfac_init same same (mkKArgs VNone VNone (VNum (1 # 100)) VNone VNone VNone (VBool true)
                         (VBatch true (Some 32%nat)) "kfac" VNone []) = Ok o /\
  adapts o /\ create_optimizer o = Ok kw /\
  load_here true (mkFile (Ok 7%nat) (Some (get_config o, VStr "mse")) (Some ["a"; "b"; "c"; "d"])) None ["w"] =
    (["w"], Raise ValueError, false).
Proof. eexists. eexists. split; [vm_compute; reflexivity|]. repeat split; vm_compute; reflexivity. Qed.

(* ------------------------------------------------------------------------ *)
(** * C107 *)

(** Whatever calls are made, and with whatever failures, the wrapped optimizer is made once and stays;
    so does the name it was made under. *)
Theorem C107_created_once : forall ml glc cvars uvars o name model loss lc g0 es1 es2 s1 g1 s2 g2 i,
  history ml glc cvars uvars es1 (new_kfac o name model loss lc) g0 = (s1, g1) ->
  history ml glc cvars uvars (es1 ++ es2)%list (new_kfac o name model loss lc) g0 = (s2, g2) ->
  s_optimizer s1 = Some i ->
  s_optimizer s2 = Some i /\ s_name s2 = s_name s1 /\ i_scope i = s_name s1 ++ "/tf_vars" /\
  forall v, perform ml glc cvars uvars (CName v) s2 g2 = (s2, g2, Raise ValueError).
Proof.
  intros ml glc cvars uvars o name model loss lc g0 es1 es2 s1 g1 s2 g2 i H1 H2 O.
  pose proof (reached _ _ _ _ _ _ _ _ _ _ _ _ _ H1) as I1.
  rewrite history_app, H1 in H2.
  assert (I1' : inv (name :: names_given es1 ++ names_given es2)%list model loss s1 g1).
  { apply inv_weaken with (2 := I1). intros x [<-|Hx]; [now left|]. right. apply in_or_app. now left. }
  destruct (inv_history _ _ _ _ (name :: names_given es1 ++ names_given es2)%list model loss es2 _ _ _ _ I1'
              (fun x Hx => or_intror (in_or_app _ _ _ (or_intror Hx))) H2) as (I2 & _ & K).
  destruct (K i O) as [O2 N2]. split; [exact O2|]. split; [exact N2|].
  destruct (v_opt _ _ _ _ _ I1 i O) as (Sc & _). split.
  - rewrite Sc, (v_scope _ _ _ _ _ I1). reflexivity.
  - intro v. cbn. unfold set_name. now rewrite O2.
Qed.
Print Assumptions C107_created_once.

(** The call that makes it uses the layers that were registered last, or those of the constructor's
    model if none were, with the constructor's loss or else the model's own, and the settings of that time. *)
Theorem C107_created_for : forall ml glc cvars uvars c s g s' g' r i,
  perform ml glc cvars uvars c s g = (s', g', r) -> s_optimizer s = None -> s_optimizer s' = Some i ->
  s_layers s' = Some (i_layers i) /\ i_kwargs i = o_kwargs (s_kfac s') /\
  (forall n, s_layers s = Some n -> i_layers i = n) /\
  (s_layers s = None ->
    exists m l, s_model s = Some m /\ (truthy (s_loss s) = Ok true /\ l = s_loss s \/ truthy (s_loss s) = Ok false /\ ml m = Some l) /\
    glc m l = Ok (i_layers i)).
Proof. intros ml glc cvars uvars c s g s' g' r i. apply perform_created. Qed.
Print Assumptions C107_created_for.

(** The registered layers are the collection that was given, or those of the given model with the
    given loss or else the model's own. *)
Theorem C107_layers_registered : forall ml glc cvars uvars s g,
  (forall o name model loss lc, s_layers (new_kfac o name model loss lc) = lc) /\
  (forall m l n, exists s', perform ml glc cvars uvars (CLayers m l (Some n)) s g = (s', g, Ok tt) /\ s_layers s' = Some n) /\
  (forall m l s' g', perform ml glc cvars uvars (CLayers m l None) s g = (s', g', Ok tt) ->
     g' = g /\ exists k l' n, m = Some k /\ glc k l' = Ok n /\ s_layers s' = Some n /\
       (truthy l = Ok true /\ l' = l \/ truthy l = Ok false /\ ml k = Some l')) /\
  (forall m l s' g' e, perform ml glc cvars uvars (CLayers m l None) s g = (s', g', Raise e) -> s' = s /\ g' = g).
Proof.
  intros ml glc cvars uvars s g. split; [reflexivity|]. split; [intros m l n; cbn; eexists; split; reflexivity|].
  split; intros m l s' g'; [|intro e]; cbn [perform register_layers]; destruct (truthy l) as [t|] eqn:T; intro H;
    try discriminate H; try (injection H as <- <- _; now split).
  - destruct m as [k|]; [|discriminate H].
    destruct t.
    + rewrite T in H. destruct (glc k l) as [n|] eqn:G; [|discriminate H]. injection H as <- <-. split; [reflexivity|].
      exists k, l, n. cbn. auto 10.
    + destruct (ml k) as [l'|] eqn:M.
      * destruct (truthy l') as [[|]|]; try discriminate H.
        destruct (glc k l') as [n|] eqn:G; [|discriminate H]. injection H as <- <-. split; [reflexivity|].
        exists k, l', n. cbn. auto 10.
      * rewrite T in H. discriminate H.
  - destruct m as [k|]; [|injection H as <- <- _; now split].
    set (l' := if t then _ else _) in H.
    destruct (truthy l') as [[|]|]; try (injection H as <- <- _; now split).
    destruct (glc k l'); [discriminate H|]. injection H as <- <- _; now split.
Qed.
Print Assumptions C107_layers_registered.

(** With plain names, no weight is listed twice, and all weights are under names that this optimizer
    has had. *)
Theorem C107_own_weights_partial : forall ml glc cvars uvars o name model loss lc g0 es s g,
  history ml glc cvars uvars es (new_kfac o name model loss lc) g0 = (s, g) -> NoDup g ->
  (forall n, In n (name :: names_given es) -> plain n) ->
  NoDup (s_weights s) /\
  forall v, In v (s_weights s) -> exists n, In n (name :: names_given es) /\ under n v.
Proof.
  intros ml glc cvars uvars o name model loss lc g0 es s g H D P. pose proof (reached _ _ _ _ _ _ _ _ _ _ _ _ _ H) as I.
  split; [exact (weights_nodup _ _ _ _ _ I P D)|exact (weights_under _ _ _ _ _ I P)].
Qed.
Print Assumptions C107_own_weights_partial.

(** So two optimizers with different plain names share no weight. *)
Theorem C107_disjoint_weights_partial : forall ml glc cvars uvars
    o name model loss lc g0 es s g  o' name' model' loss' lc' g0' es' s' g',
  history ml glc cvars uvars es (new_kfac o name model loss lc) g0 = (s, g) ->
  history ml glc cvars uvars es' (new_kfac o' name' model' loss' lc') g0' = (s', g') ->
  (forall n, In n (name :: names_given es) -> plain n) ->
  (forall n, In n (name' :: names_given es') -> plain n) ->
  (forall n, In n (name :: names_given es) -> ~ In n (name' :: names_given es')) ->
  forall v, In v (s_weights s) -> ~ In v (s_weights s').
Proof.
  intros until g'. intros H H' P P' N v V V'.
  pose proof (reached _ _ _ _ _ _ _ _ _ _ _ _ _ H) as I. pose proof (reached _ _ _ _ _ _ _ _ _ _ _ _ _ H') as I'.
  destruct (weights_under _ _ _ _ _ I P v V) as (n & Hn & t & E).
  destruct (weights_under _ _ _ _ _ I' P' v V') as (n' & Hn' & t' & E').
  rewrite E in E'. apply under_inj in E'; [|apply (P _ Hn)|apply (P' _ Hn')]. destruct E' as [-> _]. exact (N _ Hn Hn').
Qed.
Print Assumptions C107_disjoint_weights_partial.

(** After the first update the weights are the step counter and all variables in the optimizer's scope
    that existed then. *)
Theorem C107_all_weights_partial : forall ml glc cvars uvars o name model loss lc g0 es s g,
  history ml glc cvars uvars es (new_kfac o name model loss lc) g0 = (s, g) -> s_tracked s = true ->
  exists n before later, In n (name :: names_given es) /\ In (n ++ "/iter") g /\ g = (before ++ later)%list /\
    s_weights s = (n ++ "/iter") :: filter (matches (s_name s ++ "/tf_vars")) before.
Proof.
  intros ml glc cvars uvars o name model loss lc g0 es s g H T. pose proof (reached _ _ _ _ _ _ _ _ _ _ _ _ _ H) as I.
  exact (tracked_weights _ _ _ _ _ I T).
Qed.
Print Assumptions C107_all_weights_partial.

(** The property as stated fails for a name with a dot: the weights then include variables of another
    optimizer. *)
Theorem C107_own_weights_refuted : exists o,
  kfac_init same same (plain_args []) = Ok o /\
  exists s1 g1 s2 g2 v,
    history a_loss a_collection two_vars one_slot [Call CApply] (new_kfac o "net-1" (Some 1%nat) (VStr "mse") None) [] = (s1, g1) /\
    history a_loss a_collection two_vars one_slot [Call CApply] (new_kfac o "net.1" (Some 2%nat) (VStr "mse") None) g1 = (s2, g2) /\
    NoDup g2 /\ In v (s_weights s1) /\ In v (s_weights s2).
Proof.
  eexists. split; [vm_compute; reflexivity|]. do 4 eexists. exists "net-1/tf_vars/kfac/velocity".
  split; [vm_compute; reflexivity|]. split; [vm_compute; reflexivity|].
  split; [repeat constructor; cbn; intuition discriminate|]. split; cbn; auto 20.
Qed.
Print Assumptions C107_own_weights_refuted.

(** A loss function that the optimizer makes for itself is for the model and loss of its constructor. *)
Theorem C107_loss_function_partial : forall ml glc cvars uvars o name model loss lc g0 es s g i p,
  history ml glc cvars uvars es (new_kfac o name model loss lc) g0 = (s, g) ->
  s_optimizer s = Some i -> i_loss_fn i = Some p -> p = (model, loss).
Proof.
  intros ml glc cvars uvars o name model loss lc g0 es s g i p H O F.
  pose proof (reached _ _ _ _ _ _ _ _ _ _ _ _ _ H) as I. destruct (v_opt _ _ _ _ _ I i O) as (_ & [X|X] & _); congruence.
Qed.
Print Assumptions C107_loss_function_partial.

(** The property as stated fails when the model is given to register_layers, as documented: the loss
    function then has no model. *)
Theorem C107_loss_function_refuted : exists o,
  kfac_init same same (mkKArgs VNone VNone (VNum (1 # 100)) VNone VNone VNone (VBool true) VNone "kfac" VNone []) = Ok o /\
  exists s g i,
    history a_loss a_collection two_vars one_slot
      [Call (CLayers (Some 5%nat) (VStr "mse") None); Call (CBatch (VBatch true (Some 8%nat)) VNone); Call (CMinimize (VTensor 0))]
      (new_kfac o "kfac" None VNone None) [] = (s, g) /\
    s_optimizer s = Some i /\ i_layers i = 5%nat /\ i_loss_fn i = Some (None, VNone).
Proof.
  eexists. split; [vm_compute; reflexivity|]. do 3 eexists. split; [vm_compute; reflexivity|].
  split; [reflexivity|]. split; reflexivity.
Qed.
Print Assumptions C107_loss_function_refuted.

(** A history with a clash of names, a new name and a second attempt *)
Example C107_example : exists o s g,
  kfac_init same same (plain_args []) = Ok o /\
  history a_loss a_collection two_vars one_slot
    [Elsewhere ["kfac/tf_vars/kfac/damping"]; Call CApply; Call (CName "other"); Call CApply; Call (CMinimize (VTensor 1))]
    (new_kfac o "kfac" (Some 1%nat) (VStr "mse") None) [] = (s, g) /\
  s_weights s = ["kfac/iter"; "other/tf_vars/kfac/burnin_counter"; "other/tf_vars/kfac/damping"; "other/tf_vars/kfac/velocity"] /\
  s_tracked s = true /\ NoDup g /\ forall n, In n ["kfac"; "other"] -> plain n.
Proof.
  eexists. do 2 eexists. split; [vm_compute; reflexivity|]. split; [vm_compute; reflexivity|].
  split; [reflexivity|]. split; [reflexivity|]. split; [repeat constructor; cbn; intuition discriminate|].
  intros n [<-|[<-|[]]]; split; cbn; intuition discriminate.
Qed.
