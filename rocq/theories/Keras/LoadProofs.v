(** Loading a saved model. *)
From Coq Require Import String Ascii.
From Coq Require Import QArith List Arith Bool Lia.
From Verif.Base Require Import Py.
From Verif.Keras Require Import Config ConfigProofs Life LifeSpec LifeProofs.
Import ListNotations.
Local Open Scope string_scope.

Section Load.
Variable model_loss : nat -> option pyval.
Variable glc : nat -> pyval -> res nat.
Variable cvars : nat -> dict -> list string.
Variable uvars : inner -> graph -> list string.
Variables sl_fun sf_fun : pyval -> res pyval.
Variable fits : list string -> list string -> bool.

Lemma configure_adapt kw kw' ad : configure kw ad = Ok kw' ->
  get kw' "adapt_damping" = get kw "adapt_damping" \/ get kw' "adapt_damping" = Some (VBool true).
Proof.
  intro E. destruct (configure_ok _ _ _ E) as (a & d & A & D & ->).
  assert (S1 : get (step1 kw a) "adapt_damping" = get kw "adapt_damping" \/ get (step1 kw a) "adapt_damping" = Some (VBool true)).
  { unfold step1. destruct a; [right; now rewrite get_update|now left]. }
  destruct d; [|exact S1]. cbn zeta.
  assert (X := kw2_get kw a "adapt_damping").
  assert (Y : get (update (step1 kw a) (update [("use_passed_loss", VBool true); ("update_damping_immediately", VBool true)] (step1 kw a))) "adapt_damping"
              = get (step1 kw a) "adapt_damping").
  { rewrite X. destruct (get (step1 kw a) "adapt_damping"); reflexivity. }
  destruct (has _ "invert_every" && has _ "damping_adaptation_interval"); [now rewrite Y|].
  rewrite !get_set. cbn [String.eqb]. exact (eq_ind_r (fun z => z = _ \/ z = _) S1 Y).
Qed.

Lemma init_kwargs_batch a o : kfac_init sl_fun sf_fun a = Ok o -> truthy (k_train_batch a) = Ok false ->
  get (k_kwargs a) "train_batch" = None -> get (o_kwargs o) "train_batch" = None.
Proof.
  intros E T N. destruct (kfac_init_ok _ _ _ _ E) as (kw1 & sf & sl & ad & mt & tb & ad2 & _ & _ & _ & _ & C & _ & _ & _ & _ & _ & _ & TB & _ & K).
  rewrite T in TB. injection TB as <-. cbn in K. injection K as K. rewrite <- K, get_kw2_of.
  rewrite (configure_other _ _ _ "train_batch" C) by (cbn; intuition discriminate).
  unfold kw0. rewrite get_update. cbn. rewrite N. now destruct (get kw1 "loss_tensor").
Qed.

Lemma init_adapts a o v : kfac_init sl_fun sf_fun a = Ok o -> get (k_kwargs a) "adapt_damping" = Some v ->
  truthy v = Ok true -> adapts o.
Proof.
  intros E G T. destruct (kfac_init_ok _ _ _ _ E) as (kw1 & sf & sl & ad & mt & tb & ad2 & _ & _ & _ & _ & C & _ & _ & Cf & _).
  unfold adapts, get_default. rewrite Cf, get_config_of. cbn [String.eqb Ascii.eqb Bool.eqb].
  destruct (configure_adapt _ _ _ C) as [X|X]; rewrite X; [|reflexivity].
  unfold kw0. rewrite get_update. cbn. now rewrite G.
Qed.

(** An optimizer rebuilt from the configuration of one that adapts the damping adapts it too, and
    has no training batch. *)
Lemma rebuilt_adaptive a o o' : kfac_init sl_fun sf_fun a = Ok o ->
  (forall k, In k init_params -> get (k_kwargs a) k = None) -> adapts o ->
  from_config sl_fun sf_fun (get_config o) = Ok o' ->
  adapts o' /\ get (o_kwargs o') "train_batch" = None.
Proof.
  intros E N A F.
  destruct (kfac_init_ok _ _ _ _ E) as (kw1 & sf & sl & ad & mt & tb & ad2 & _ & _ & _ & _ & C & _ & _ & Cf & AD & MT & Hy & _).
  assert (H : forall k, ~ In k mutable_hyper_params -> get (get_config o) k = get (o_config o) k).
  { intros k Nk. unfold get_config. rewrite get_update, Hy, get_map_fst.
    destruct (existsb (String.eqb k) (hypers_of (o_config o) ad mt)) eqn:X; [|reflexivity].
    exfalso. apply hypers_of_in in X. tauto. }
  unfold from_config in F. split.
  - unfold adapts, get_default in A. destruct (get (o_config o) "adapt_damping") as [v|] eqn:G; [|discriminate].
    refine (init_adapts _ _ v F _ A). cbn [k_kwargs].
    rewrite (get_filter (fun k => negb (existsb (String.eqb k) init_params))). cbn.
    rewrite H by (cbn; intuition discriminate). exact G.
  - refine (init_kwargs_batch _ _ F _ _); cbn [k_train_batch k_kwargs].
    + unfold get_default. rewrite H by (cbn; intuition discriminate). rewrite Cf, get_config_of. cbn [String.eqb Ascii.eqb Bool.eqb].
      rewrite (configure_other _ _ _ "train_batch" C) by (cbn; intuition discriminate).
      unfold kw0. rewrite get_update. cbn. rewrite N by (cbn; auto 20). reflexivity.
    + rewrite (get_filter (fun k => negb (existsb (String.eqb k) init_params))). reflexivity.
Qed.

Lemma no_batch_raises l s g : adapts (s_kfac s) -> get (o_kwargs (s_kfac s)) "train_batch" = None ->
  s_optimizer s = None -> (exists n, s_layers s = Some n) ->
  forall s' g' r, minimize model_loss glc cvars uvars l s g = (s', g', r) -> exists e, r = Raise e.
Proof.
  intros A B O [n L] s' g' r H. unfold minimize in H.
  unfold minimize_loss in H. destruct (truthy (get_default (o_config (s_kfac s)) "use_passed_loss" VNone)) as [u|e];
    [|injection H as <- <- <-; eauto]. cbn [bind] in H.
  set (k := if (u && _)%bool then _ else _) in H.
  assert (K : o_config k = o_config (s_kfac s) /\ get (o_kwargs k) "train_batch" = None).
  { unfold k. destruct (_ && _)%bool; cbn [o_kwargs o_config]; [rewrite get_set|]; auto. }
  clearbody k. destruct K as [K1 K2]. unfold call_and_track in H. unfold create_inner in H.
  cbn [s_optimizer s_layers s_kfac with_kfac] in H. rewrite O, L in H. change (s_kfac (with_kfac s k)) with k in H. unfold adapts in A. rewrite K1, A in H.
  unfold has at 1 in H. rewrite K2 in H. cbn in H. injection H as <- <- <-. eauto.
Qed.

(** The graph only gets variables under the optimizer's name. *)
Lemma create_inner_under s g s' g' r : s_scope s = tf_scope (s_name s) ->
  create_inner model_loss glc cvars s g = (s', g', r) ->
  s_scope s' = s_scope s /\ s_name s' = s_name s /\
  exists new, g' = (g ++ new)%list /\ forall v, In v new -> under (s_name s) v.
Proof.
  intros Sc H. unfold create_inner in H.
  assert (Z : forall s0 : kst, s_scope s0 = s_scope s -> s_name s0 = s_name s -> s_scope s0 = s_scope s /\ s_name s0 = s_name s /\
     exists new, g = (g ++ new)%list /\ forall v, In v new -> under (s_name s) v).
  { intros s0 A B. split; [exact A|]. split; [exact B|]. exists []. split; [now rewrite app_nil_r|]. intros v []. }
  destruct (s_optimizer s); [injection H as <- <- <-; now apply Z|].
  destruct (match s_layers s with Some _ => _ | None => _ end) as [s1 r1] eqn:E1.
  assert (S1 : s_scope s1 = s_scope s /\ s_name s1 = s_name s).
  { destruct (s_layers s); [injection E1 as <- <-; auto|]. apply layers_kept in E1 as [->|[n ->]]; auto. }
  destruct S1 as [S1 N1].
  destruct r1; [|injection H as <- <- <-; now apply Z].
  destruct (truthy _) as [ad|]; [|injection H as <- <- <-; now apply Z].
  destruct (ad && _)%bool; [injection H as <- <- <-; now apply Z|].
  set (s2 := if (ad && _)%bool then _ else _) in H.
  assert (S2 : s_scope s2 = s_scope s /\ s_name s2 = s_name s) by (unfold s2; destruct (ad && _)%bool; auto).
  clearbody s2. destruct S2 as [S2 N2].
  destruct (iterations s2 g) as [s3 g3] eqn:E3.
  assert (S3 : s_scope s3 = s_scope s /\ s_name s3 = s_name s /\ exists new, g3 = (g ++ new)%list /\ forall v, In v new -> under (s_name s) v).
  { unfold iterations in E3. destruct (s_iterations s2); injection E3 as <- <-; [now apply Z|].
    cbn. split; [exact S2|]. split; [exact N2|]. eexists. split; [reflexivity|]. intros v [<-|[]]. exists "iter". now rewrite N2. }
  destruct S3 as (S3 & N3 & n3 & -> & U3).
  cbn [s_layers with_kfac s_scope s_fn] in H.
  destruct (s_layers s3) as [n|]; [|injection H as <- <- <-; cbn; eauto].
  destruct (create _ _ _) as [g5 r5] eqn:E5. apply create_extends in E5 as (new & -> & U5).
  assert (G5 : exists new', ((g ++ n3) ++ new)%list = (g ++ new')%list /\ forall v, In v new' -> under (s_name s) v).
  { exists (n3 ++ new)%list. split; [now rewrite app_assoc|]. intros v Hv. apply in_app_or in Hv. destruct Hv as [Hv|Hv]; [auto|].
    destruct (U5 v Hv) as (k & _ & ->). rewrite S3, Sc. exists ("tf_vars/" ++ k). unfold tf_scope.
    rewrite !app_assoc_s. reflexivity. }
  destruct r5; injection H as <- <- <-; cbn; auto.
Qed.

Lemma call_under s g s' g' r : s_scope s = tf_scope (s_name s) ->
  call_and_track model_loss glc cvars uvars s g = (s', g', r) ->
  s_scope s' = s_scope s /\ s_name s' = s_name s /\
  exists new, g' = (g ++ new)%list /\ forall v, In v new -> under (s_name s) v.
Proof.
  intros Sc H. unfold call_and_track in H.
  destruct (create_inner model_loss glc cvars s g) as [[s1 g1] r1] eqn:E1.
  destruct (create_inner_under _ _ _ _ _ Sc E1) as (S1 & N1 & n1 & -> & U1).
  destruct r1; [|injection H as <- <- <-; eauto].
  destruct (s_optimizer s1) as [i|]; [|injection H as <- <- <-; eauto].
  destruct (create _ _ _) as [g2 r2] eqn:E2. apply create_extends in E2 as (new & -> & U2).
  assert (G : exists new', ((g ++ n1) ++ new)%list = (g ++ new')%list /\ forall v, In v new' -> under (s_name s) v).
  { exists (n1 ++ new)%list. split; [now rewrite app_assoc|]. intros v Hv. apply in_app_or in Hv. destruct Hv as [Hv|Hv]; [auto|].
    destruct (U2 v Hv) as (k & _ & ->). rewrite S1, Sc. exists ("tf_vars/" ++ k). unfold tf_scope.
    rewrite !app_assoc_s. reflexivity. }
  destruct r2; injection H as <- <- <-; [|auto].
  unfold track. destruct (s_tracked s1); cbn; auto.
Qed.

Lemma layers_fixed s g s' g' r n : s_layers s = Some n ->
  call_and_track model_loss glc cvars uvars s g = (s', g', r) -> s_layers s' = Some n.
Proof.
  intros L H. unfold call_and_track in H.
  destruct (create_inner model_loss glc cvars s g) as [[s1 g1] r1] eqn:E1.
  assert (L1 : s_layers s1 = Some n).
  { unfold create_inner in E1. rewrite L in E1. destruct (s_optimizer s); [injection E1 as <- <- <-; exact L|].
    destruct (truthy _) as [ad|]; [|injection E1 as <- <- <-; exact L].
    destruct (ad && _)%bool; [injection E1 as <- <- <-; exact L|].
    set (s2 := if (ad && _)%bool then _ else _) in E1.
    assert (L2 : s_layers s2 = Some n) by (unfold s2; destruct (ad && _)%bool; exact L). clearbody s2.
    destruct (iterations s2 g) as [s3 g3] eqn:E3.
    assert (L3 : s_layers s3 = Some n) by (unfold iterations in E3; destruct (s_iterations s2); injection E3 as <- <-; exact L2).
    cbn [s_layers with_kfac s_scope s_fn] in E1. rewrite L3 in E1.
    destruct (create _ _ _) as [g5 [u|e]]; injection E1 as <- <- <-; exact L3. }
  destruct r1; [|injection H as <- <- <-; exact L1].
  destruct (s_optimizer s1); [|injection H as <- <- <-; exact L1].
  destruct (create _ _ _) as [g2 [u2|e]]; injection H as <- <- <-; [|exact L1].
  unfold track. destruct (s_tracked s1); exact L1.
Qed.

End Load.

Section Loaded.
Variable model_loss : nat -> option pyval.
Variable glc : nat -> pyval -> res nat.
Variable cvars : nat -> dict -> list string.
Variable uvars : inner -> graph -> list string.
Variables sl_fun sf_fun : pyval -> res pyval.
Variable fits : list string -> list string -> bool.

Lemma adaptive_not_loaded a o f m loss ws optimizer_name path g g' r op :
  kfac_init sl_fun sf_fun a = Ok o -> (forall k, In k init_params -> get (k_kwargs a) k = None) -> adapts o ->
  f_model f = Ok m -> f_config f = Some (get_config o, loss) -> f_weights f = Some ws ->
  load_model model_loss glc cvars uvars sl_fun sf_fun fits path f optimizer_name g = (g', r, op) ->
  exists e, r = Raise e.
Proof.
  intros E N A M C W H. unfold load_model in H. rewrite M in H. unfold load_compiled in H. rewrite C, W in H.
  destruct (from_config sl_fun sf_fun (get_config o)) as [o'|e] eqn:F; [|injection H as <- <- <-; eauto].
  destruct (rebuilt_adaptive _ _ _ _ _ E N A F) as [A' B'].
  set (s0 := new_kfac _ _ _ _ _) in H.
  destruct (register_layers (compiled model_loss m loss) glc (Some m) VNone None s0) as [s1 r1] eqn:R.
  assert (S1 : r1 = Ok tt -> adapts (s_kfac s1) /\ get (o_kwargs (s_kfac s1)) "train_batch" = None /\
                s_optimizer s1 = None /\ exists n, s_layers s1 = Some n).
  { intros ->. unfold register_layers in R. cbn [truthy] in R. unfold compiled in R. rewrite Nat.eqb_refl in R.
    destruct loss as [|[|]| | | | |]; cbn in R;
      try discriminate R;
      repeat match type of R with context [match ?x with _ => _ end] => destruct x; try discriminate R end;
      injection R as <-; (split; [exact A'|]); (split; [cbn [use_layers s_kfac o_kwargs]; rewrite get_set; exact B'|]); (split; [reflexivity|cbn; eauto]). }
  destruct r1 as [[]|e]; [|injection H as <- <- <-; eauto].
  destruct (S1 eq_refl) as (A1 & B1 & O1 & L1).
  set (s2r := match optimizer_name with None | Some "" => _ | Some n => _ end) in H.
  assert (S2 : exists s2, s2r = (s2, Ok tt) /\ adapts (s_kfac s2) /\ get (o_kwargs (s_kfac s2)) "train_batch" = None /\
     s_optimizer s2 = None /\ exists n, s_layers s2 = Some n).
  { unfold s2r, set_name. destruct optimizer_name as [[|c n]|]; [exists s1; auto|rewrite O1|exists s1; auto].
    eexists. split; [reflexivity|]. cbn [s_kfac s_optimizer s_layers o_kwargs]. split; [|rewrite get_set; auto].
    unfold adapts, get_default in *. cbn [o_config]. rewrite get_set. exact A1. }
  destruct S2 as (s2 & -> & A2 & B2 & O2 & L2). 
  destruct (minimize (compiled model_loss m loss) glc cvars uvars (VTensor 0) s2 g) as [[s3 g3] r3] eqn:Mi.
  destruct (no_batch_raises _ _ _ _ _ _ _ A2 B2 O2 L2 _ _ _ Mi) as [e ->]. injection H as <- <- <-. eauto.
Qed.

Lemma loaded_optimizer path f optimizer_name g g' l op :
  load_model model_loss glc cvars uvars sl_fun sf_fun fits path f optimizer_name g = (g', Ok l, op) ->
  exists m config loss o n own, f_model f = Ok m /\ f_config f = Some (config, loss) /\
    from_config sl_fun sf_fun config = Ok o /\
    glc m loss = Ok n /\
    (s_name (l_state l) = match optimizer_name with None | Some "" => match get config "name" with Some (VStr s) => s | _ => "kfac" end | Some x => x end) /\
    s_layers (l_state l) = Some n /\ l_graph l = g' /\
    g' = (g ++ own)%list /\ (forall v, In v own -> under (s_name (l_state l)) v).
Proof.
  intro H. unfold load_model in H. destruct (f_model f) as [m|]; [|discriminate].
  destruct (load_compiled _ _ _ _ _ _ _ f m optimizer_name g) as [g1 r1] eqn:E. injection H as <- -> <-.
  unfold load_compiled in E. destruct (f_config f) as [[config loss]|]; [|discriminate].
  destruct (from_config sl_fun sf_fun config) as [o|] eqn:F; [|discriminate].
  set (nm := match get config "name" with Some (VStr s) => s | _ => "kfac" end) in *.
  set (s0 := new_kfac _ _ _ _ _) in E.
  destruct (register_layers (compiled model_loss m loss) glc (Some m) VNone None s0) as [s1 r1] eqn:R.
  destruct r1 as [[]|]; [|discriminate].
  assert (S1 : exists n, glc m loss = Ok n /\ s1 = use_layers n s0).
  { unfold register_layers in R. cbn [truthy] in R. unfold compiled in R. rewrite Nat.eqb_refl in R.
    destruct (truthy loss) as [[|]|]; try discriminate R.
    destruct (glc m _) as [n|]; [|discriminate R]. injection R as <-. eauto. }
  destruct S1 as (n & Gn & ->).
  set (s2r := match optimizer_name with None | Some "" => _ | Some n => _ end) in E.
  set (want := match optimizer_name with None | Some "" => nm | Some x => x end).
  assert (S2 : exists s2, s2r = (s2, Ok tt) /\ s_name s2 = want /\ s_scope s2 = tf_scope want /\ s_layers s2 = Some n).
  { unfold s2r, want, set_name. destruct optimizer_name as [[|c x]|]; eexists; (split; [reflexivity|]); cbn; auto. }
  destruct S2 as (s2 & E2 & N2 & Sc2 & L2). rewrite E2 in E.
  exists m, config, loss, o, n.
  destruct (f_weights f) as [ws|].
  - destruct (minimize (compiled model_loss m loss) glc cvars uvars (VTensor 0) s2 g) as [[s3 g3] r3] eqn:Mi.
    destruct r3; [|discriminate]. injection E as <- <-. cbn [l_state l_graph].
    unfold minimize in Mi. destruct (minimize_loss (s_kfac s2) (VTensor 0)) as [k|]; [|discriminate].
    assert (L3 := layers_fixed _ _ _ _ (with_kfac s2 k) _ _ _ _ _ L2 Mi).
    assert (Sc3 : s_scope (with_kfac s2 k) = tf_scope (s_name (with_kfac s2 k))) by (cbn [with_kfac s_scope s_name]; now rewrite N2).
    destruct (call_under _ _ _ _ _ _ _ _ _ Sc3 Mi) as (S3 & N3 & own & -> & U).
    cbn [with_kfac s_name] in N3, U. exists own. do 4 (split; [first [reflexivity|assumption]|]).
    split; [now rewrite N3, N2|]. do 3 (split; [first [reflexivity|assumption]|]).
    intros v Hv. rewrite N3. exact (U v Hv).
  - injection E as <- <-. cbn [l_state l_graph]. exists [].
    do 8 (split; [first [reflexivity|assumption|now rewrite app_nil_r]|]). intros v [].
Qed.
End Loaded.
