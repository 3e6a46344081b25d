(** Property theorem C126. *)
From Coq Require Import List String QArith Bool Arith.
From Verif.Base Require Import Py.
From Verif.Keras Require Import Compile CompileSpec CompileProofs.
Import ListNotations.
Open Scope string_scope.
Open Scope list_scope.

(* ======================================================================= *)
(** ** C126 *)

(** If the model is compiled at all, then with the saved configuration of the optimizer, with the
    saved loss and metrics up to the names of custom objects (a loss that is described by a class
    is made by Keras), and with the saved weights of the losses and the saved mode as they are. *)
Theorem C126_compiled_as_saved_partial : forall kfac optimizers losses custom_objects tc a,
  fst (load_args kfac optimizers losses custom_objects tc) = Ok a ->
  exists optimizer loss metrics weights mode,
    get tc "optimizer_config" = Some optimizer /\ get tc "loss" = Some loss /\
    get tc "metrics" = Some metrics /\ get tc "loss_weights" = Some weights /\
    get tc "sample_weight_mode" = Some mode /\
    (exists class config made, at_path optimizer [Key "class_name"] = Some (Str class) /\
       at_path optimizer [Key "config"] = Some config /\ a_optimizer a = Made made config /\
       match known kfac custom_objects class with
       | Some o => made = Given o
       | None => In class optimizers /\ made = Str class
       end) /\
    (at_path loss [Key "class_name"] = None -> same_up_to_names (known kfac custom_objects) loss (a_loss a)) /\
    (at_path loss [Key "class_name"] <> None ->
       exists class config, at_path loss [Key "class_name"] = Some (Str class) /\ In class losses /\
         at_path loss [Key "config"] = Some config /\ a_loss a = Made (Str class) config) /\
    same_up_to_names (known kfac custom_objects) metrics (a_metrics a) /\
    same_up_to_names (known kfac custom_objects)
      (match get tc "weighted_metrics" with Some w => w | None => None_ end) (a_weighted_metrics a) /\
    a_loss_weights a = weights /\ a_sample_weight_mode a = mode.
Proof.
  intros kfac os ls co tc a. rewrite load_args_eq. unfold compile_args, item.
  destruct (get tc "optimizer_config") as [oc|]; [|discriminate]. cbn [bind].
  destruct (deserialize os (customs_of kfac co) oc) as [opt|] eqn:Eo; [|discriminate]. cbn [bind].
  destruct (get tc "loss") as [lc|]; [|discriminate]. cbn [bind].
  destruct (if loss_of_class lc then deserialize ls [] lc else Ok lc) as [lc'|] eqn:El; [|discriminate]. cbn [bind].
  destruct (get tc "metrics") as [m|]; [|discriminate]. cbn [bind].
  destruct (get tc "sample_weight_mode") as [mo|]; [|discriminate]. cbn [bind].
  destruct (get tc "loss_weights") as [w|]; [|discriminate]. cbn [bind].
  intros [= <-]. exists oc, lc, m, w, mo. cbn [a_optimizer a_loss a_metrics a_weighted_metrics a_loss_weights a_sample_weight_mode].
  repeat (split; [reflexivity|]).
  assert (At : forall d k, at_path (Dict d) [Key k] = get d k).
  { intros d k. cbn. rewrite get_find. destruct (find _ d); reflexivity. }
  split; [|split; [|split; [|split; [apply map_replace|split; [apply map_replace|now split]]]]].
  - destruct oc; try discriminate. unfold deserialize in Eo. rewrite !At.
    destruct (get d "class_name") as [[]|]; try discriminate. destruct (get d "config") as [c|]; [|discriminate].
    rewrite customs_known in Eo. exists s, c.
    destruct (known kfac co s) as [o|].
    + exists (Given o). injection Eo as <-. auto.
    + destruct (existsb (String.eqb s) os) eqn:Ex; [|discriminate]. injection Eo as <-.
      exists (Str s). repeat (split; [reflexivity|]). split; [|reflexivity].
      apply existsb_exists in Ex. destruct Ex as (x & Hx & E). apply String.eqb_eq in E. now subst.
  - intro N. assert (E : loss_of_class lc = false).
    { destruct lc; try reflexivity. rewrite At in N. cbn. now rewrite N. }
    rewrite E in El. injection El as <-. apply map_replace.
  - intro N. destruct lc; try (now destruct N). rewrite !At in *. cbn [loss_of_class] in El.
    destruct (get d "class_name") as [v|] eqn:Ec; [|now destruct N]. unfold deserialize in El. rewrite Ec in El.
    destruct v; try discriminate. destruct (get d "config") as [c|]; [|discriminate]. cbn [get] in El.
    destruct (existsb (String.eqb s) ls) eqn:Ex; [|discriminate]. injection El as <-.
    exists s, c. apply existsb_exists in Ex. destruct Ex as (x & Hx & E). apply String.eqb_eq in E. subst x. auto.
Qed.
Print Assumptions C126_compiled_as_saved_partial.

(** It is compiled, with a Kfac optimizer, whatever else is called Kfac by the caller, if the saved
    optimizer was one and the loss is not described by a class of the user. *)
Theorem C126_compiled : forall kfac optimizers losses custom_objects config loss metrics weights mode weighted,
  (at_path loss [Key "class_name"] = None \/
   exists class c, loss = described class c /\ In class losses) ->
  exists a,
    fst (load_args kfac optimizers losses custom_objects
           (written (described "Kfac" config) loss metrics weights mode weighted)) = Ok a /\
    a_optimizer a = Made (Given kfac) config.
Proof.
  intros kfac os ls co config loss metrics weights mode weighted H. rewrite load_args_eq.
  unfold compile_args, item, written. cbn [app get String.eqb Ascii.eqb Bool.eqb bind].
  unfold deserialize at 1. unfold described at 1. cbn [get String.eqb Ascii.eqb Bool.eqb].
  rewrite customs_known. unfold known at 1. cbn [String.eqb Ascii.eqb Bool.eqb bind].
  assert (E : exists lc, (if loss_of_class loss then deserialize ls [] loss else Ok loss) = Ok lc).
  { destruct H as [N|(c & x & -> & Hc)].
    - exists loss. destruct loss; try reflexivity. cbn [loss_of_class]. cbn in N.
      rewrite get_find. destruct (find _ d); [discriminate|reflexivity].
    - cbn. rewrite (proj2 (existsb_exists (String.eqb c) ls)); [eauto|]. exists c. split; [exact Hc|apply String.eqb_refl]. }
  destruct E as [lc ->]. cbn [bind].
  destruct weighted; cbn [app get String.eqb Ascii.eqb Bool.eqb bind]; eexists; (split; [reflexivity|reflexivity]).
Qed.
Print Assumptions C126_compiled.

(** Not so: a loss that is described by a class of the user is refused although the class is among
    the custom objects; the description of a metric by such a class has the class itself in the place
    of its name; and the caller's dictionary is changed, if it is not empty. *)
Theorem C126_custom_objects_refuted :
  (forall kfac optimizers losses d class o config metrics weights mode weighted optimizer_config,
     get d class = Some o -> class <> "Kfac" -> ~ In class losses ->
     fst (load_args kfac optimizers losses (Some d)
            (written (described "Kfac" optimizer_config) (described class config) metrics weights mode weighted))
     = Raise ValueError) /\
  (forall kfac optimizers losses d class o config loss weights mode weighted optimizer_config a,
     get d class = Some o -> class <> "Kfac" ->
     fst (load_args kfac optimizers losses (Some d)
            (written (described "Kfac" optimizer_config) loss (Lst [described class config]) weights mode weighted)) = Ok a ->
     at_path (a_metrics a) [Idx 0; Key "class_name"] = Some (Given o)) /\
  (forall kfac optimizers losses d tc, d <> [] -> get d "Kfac" <> Some kfac ->
     exists d', snd (load_args kfac optimizers losses (Some d) tc) = Some d' /\ d' <> d /\
       get d' "Kfac" = Some kfac).
Proof.
  split; [|split].
  - intros kfac os ls d c o config metrics weights mode weighted oc Hd N Hl. rewrite load_args_eq.
    unfold compile_args, item, written. cbn [app get String.eqb Ascii.eqb Bool.eqb bind].
    unfold deserialize at 1. unfold described at 1. cbn [get String.eqb Ascii.eqb Bool.eqb].
    rewrite customs_known. unfold known at 1. cbn [String.eqb Ascii.eqb Bool.eqb bind].
    cbn [loss_of_class described get String.eqb Ascii.eqb Bool.eqb deserialize].
    destruct (existsb (String.eqb c) ls) eqn:Ex; [|reflexivity].
    apply existsb_exists in Ex. destruct Ex as (x & Hx & E). apply String.eqb_eq in E. subst x. contradiction.
  - intros kfac os ls d c o config loss weights mode weighted oc a Hd N H.
    destruct (C126_compiled_as_saved_partial _ _ _ _ _ _ H) as (x1 & x2 & m & x3 & x4 & _ & _ & Em & _ & _ & _ & _ & _ & S & _).
    unfold written in Em. cbn in Em. injection Em as <-.
    specialize (S [Idx 0; Key "class_name"]). cbn in S.
    destruct (at_path (a_metrics a) [Idx 0; Key "class_name"]) as [y|] eqn:Ey; cbn in Ey; rewrite Ey in S; [|contradiction].
    assert (K : known kfac (Some d) c = Some o).
    { unfold known. destruct (String.eqb_spec c "Kfac"); [contradiction|]. now rewrite get_find in Hd. }
    unfold means in S. rewrite K in S. now rewrite S in *.
  - intros kfac os ls d tc Hd Hk. destruct d as [|e d]; [contradiction|].
    exists (set (e :: d) "Kfac" kfac). split; [reflexivity|].
    assert (E : get (set (e :: d) "Kfac" kfac) "Kfac" = Some kfac) by (rewrite get_set; reflexivity).
    split; [|exact E]. intro X. rewrite X in E. contradiction.
Qed.
Print Assumptions C126_custom_objects_refuted.

(** A model with two outputs, a built-in and a custom loss, and nested metrics *)
Example C126_example :
  let loss := Dict [("out_a", Str "mse"); ("out_b", Str "my_loss")] in
  at_path loss [Key "class_name"] = None /\
  exists a, fst (load_args 7 ["sgd"] ["MeanSquaredError"] (Some [("my_loss", 3); ("my_metric", 4)]%nat)
    (written (described "Kfac" (Dict [("damping", Num 1)])) loss
       (Lst [Lst [Str "accuracy"; Str "my_metric"]; None_]) (Lst [Num 1; Num 2]) None_ None)) = Ok a /\
  a_loss a = Dict [("out_a", Str "mse"); ("out_b", Given 3)] /\
  a_metrics a = Lst [Lst [Str "accuracy"; Given 4]; None_] /\ a_weighted_metrics a = None_.
Proof. cbv zeta. split; [reflexivity|]. eexists. repeat split. Qed.
