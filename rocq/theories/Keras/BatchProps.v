(** C74 over the life of a Keras optimizer: the batch that was registered is the one that the wrapped
    optimizer gets. *)
From Coq Require Import String Ascii.
From Coq Require Import QArith List Arith Bool.
From Verif.Base Require Import Py.
From Verif.Keras Require Import Config ConfigProofs ConfigProps Life LifeSpec LifeProofs LifeProps.
Import ListNotations.
Local Open Scope string_scope.

Section Kept.
Variable ml : nat -> option pyval.
Variable glc : nat -> pyval -> res nat.
Variable cvars : nat -> dict -> list string.
Variable uvars : inner -> list string -> list string.
Variable x : string.
Hypothesis x_ok : ~ In x ["name"; "var_list"; "loss_fn"; "loss"].

Definition keeps (s s' : kst) : Prop :=
  o_hyper (s_kfac s') = o_hyper (s_kfac s) /\
  (get (o_hyper (s_kfac s)) x = None -> get (o_kwargs (s_kfac s')) x = get (o_kwargs (s_kfac s)) x) /\
  (x <> "name" -> get (o_config (s_kfac s')) x = get (o_config (s_kfac s)) x).
Lemma keeps_refl s : keeps s s. Proof. split; auto. Qed.
Lemma keeps_trans s1 s2 s3 : keeps s1 s2 -> keeps s2 s3 -> keeps s1 s3.
Proof.
  intros (A & B & A') (C & D & C'). split; [congruence|]. split; [intro H; rewrite D, B; congruence|].
  intro H. now rewrite C', A'.
Qed.
Lemma keeps_set s s' k v :
  o_hyper (s_kfac s') = o_hyper (s_kfac s) -> o_kwargs (s_kfac s') = set (o_kwargs (s_kfac s)) k v ->
  (x <> "name" -> get (o_config (s_kfac s')) x = get (o_config (s_kfac s)) x) ->
  In k ["name"; "var_list"; "loss_fn"; "loss"] -> keeps s s'.
Proof.
  intros A B D C. split; [exact A|]. split; [|exact D]. intros _. rewrite B, get_set.
  destruct (String.eqb_spec k x) as [->|]; [destruct (x_ok C)|reflexivity].
Qed.
Lemma keeps_layers m l lc s s' r : register_layers ml glc m l lc s = (s', r) -> keeps s s'.
Proof.
  intro E. apply layers_kept in E as [->|[n ->]]; [apply keeps_refl|].
  apply keeps_set with (k := "var_list") (v := VOther n); cbn; auto.
Qed.
Lemma keeps_create s g s' g' r : create_inner ml glc cvars s g = (s', g', r) -> keeps s s'.
Proof.
  unfold create_inner. intro H. destruct (s_optimizer s); [injection H as <- <- <-; apply keeps_refl|].
  destruct (match s_layers s with Some _ => _ | None => _ end) as [s1 r1] eqn:E1.
  assert (K1 : keeps s s1).
  { destruct (s_layers s); [injection E1 as <- <-; apply keeps_refl|exact (keeps_layers _ _ _ _ _ _ E1)]. }
  apply keeps_trans with (1 := K1). clear K1 E1.
  destruct r1 as [[]|]; [|injection H as <- <- <-; apply keeps_refl].
  destruct (truthy _) as [ad|]; [|injection H as <- <- <-; apply keeps_refl].
  destruct (ad && _)%bool; [injection H as <- <- <-; apply keeps_refl|].
  set (s2 := if (ad && _)%bool then _ else _) in H.
  assert (K2 : keeps s1 s2).
  { unfold s2. destruct (ad && _)%bool; [|apply keeps_refl].
    apply keeps_set with (k := "loss_fn") (v := VOther 0); cbn; auto. }
  clearbody s2. apply keeps_trans with (1 := K2). clear K2.
  destruct (iterations s2 g) as [s3 g3] eqn:It.
  assert (K3 : keeps s2 s3).
  { unfold iterations in It. destruct (s_iterations s2); injection It as <- <-; split; auto. }
  apply keeps_trans with (1 := K3).
  assert (K4 : keeps s3 (with_kfac s3 (mkKfac (update (o_kwargs (s_kfac s3)) (o_hyper (s_kfac s3))) (o_config (s_kfac s3)) (o_hyper (s_kfac s3))))).
  { split; [reflexivity|]. split; [|reflexivity]. intro N. cbn. rewrite get_update, N. reflexivity. }
  destruct (s_layers _) as [n|]; [|injection H as <- <- <-; exact K4].
  destruct (create _ _ g3) as [g5 [[]|]]; injection H as <- <- <-; exact K4.
Qed.
Lemma keeps_call s g s' g' r : call_and_track ml glc cvars uvars s g = (s', g', r) -> keeps s s'.
Proof.
  unfold call_and_track. destruct (create_inner ml glc cvars s g) as [[s1 g1] r1] eqn:E.
  apply keeps_create in E. intro H.
  destruct r1 as [[]|]; [|injection H as <- <- <-; exact E].
  destruct (s_optimizer s1); [|injection H as <- <- <-; exact E].
  destruct (create _ _ g1) as [g2 [[]|]]; injection H as <- <- <-; [|exact E].
  unfold track. destruct (s_tracked s1); exact E.
Qed.
Lemma keeps_perform c s g s' g' r : (forall tb bs, c <> CBatch tb bs) ->
  perform ml glc cvars uvars c s g = (s', g', r) -> keeps s s'.
Proof.
  intros N H. destruct c as [v|m l lc|tb bs| |l|]; cbn [perform] in H.
  - unfold set_name in H. destruct (s_optimizer s); injection H as <- <- <-; [apply keeps_refl|].
    apply keeps_set with (k := "name") (v := VStr v); cbn [s_kfac o_kwargs o_hyper o_config In]; auto.
    intro Nx. rewrite get_set. destruct (String.eqb_spec "name" x); [congruence|reflexivity].
  - destruct (register_layers ml glc m l lc s) as [s1 r1] eqn:E. injection H as <- <- <-. exact (keeps_layers _ _ _ _ _ _ E).
  - destruct (N tb bs eq_refl).
  - exact (keeps_create _ _ _ _ _ H).
  - unfold minimize, minimize_loss in H. destruct (truthy _) as [u|]; cbn [bind] in H; [|injection H as <- <- <-; apply keeps_refl].
    apply keeps_call in H. apply keeps_trans with (2 := H).
    destruct (u && _)%bool; [|split; auto].
    apply keeps_set with (k := "loss") (v := l); cbn; auto.
  - exact (keeps_call _ _ _ _ _ H).
Qed.

Lemma optimizer_stays c s g s' g' r i : perform ml glc cvars uvars c s g = (s', g', r) ->
  s_optimizer s = Some i -> s_optimizer s' = Some i.
Proof.
  intros H O.
  assert (CT : forall s s' g' r, call_and_track ml glc cvars uvars s g = (s', g', r) ->
             s_optimizer s = Some i -> s_optimizer s' = Some i).
  { clear. intros s s' g' r H O. unfold call_and_track, create_inner in H. rewrite O in H. rewrite O in H.
    destruct (create _ _ g) as [g2 [[]|]]; injection H as <- <- <-; [|exact O].
    unfold track. destruct (s_tracked s); exact O. }
  destruct c as [v|m l lc|tb bs| |l|]; cbn [perform] in H.
  - unfold set_name in H. rewrite O in H. injection H as <- <- <-. exact O.
  - destruct (register_layers ml glc m l lc s) as [s1 r1] eqn:E. injection H as <- <- <-.
    apply layers_kept in E as [->|[n ->]]; exact O.
  - unfold register_batch in H. destruct (register_train_batch _ tb bs); [|destruct tb as [| | | | |[|] fd|]];
      injection H as <- <- <-; exact O.
  - unfold create_inner in H. rewrite O in H. injection H as <- <- <-. exact O.
  - unfold minimize in H. destruct (minimize_loss (s_kfac s) l) as [k|]; [|injection H as <- <- <-; exact O].
    exact (CT _ _ _ _ H O).
  - exact (CT _ _ _ _ H O).
Qed.

Lemma created_with v es : forall s g s' g' i,
  (forall tb bs, ~ In (Call (CBatch tb bs)) es) ->
  history ml glc cvars uvars es s g = (s', g') ->
  s_optimizer s = None -> get (o_hyper (s_kfac s)) x = None -> get (o_kwargs (s_kfac s)) x = v ->
  s_optimizer s' = Some i -> get (i_kwargs i) x = v.
Proof.
  induction es as [|[c|ns] es IH]; intros s g s' g' i N H O Hy Kw O'; cbn [history] in H.
  - injection H as <- <-. congruence.
  - destruct (perform ml glc cvars uvars c s g) as [[s1 g1] r1] eqn:P.
    assert (Nc : forall tb bs, c <> CBatch tb bs) by (intros tb bs ->; exact (N tb bs (or_introl eq_refl))).
    destruct (keeps_perform _ _ _ _ _ _ Nc P) as (A & B & _). specialize (B Hy).
    destruct (s_optimizer s1) as [j|] eqn:O1.
    + assert (I : s_optimizer s' = Some j).
      { clear - H O1. revert s1 g1 H O1. induction es as [|[c|ns] es IH]; intros s1 g1 H O1; cbn [history] in H.
        - injection H as <- <-. exact O1.
        - destruct (perform ml glc cvars uvars c s1 g1) as [[s2 g2] r2] eqn:P. exact (IH _ _ H (optimizer_stays _ _ _ _ _ _ _ P O1)).
        - exact (IH _ _ H O1). }
      rewrite I in O'. injection O' as <-.
      destruct (C107_created_for _ _ _ _ _ _ _ _ _ _ _ P O O1) as (_ & -> & _). congruence.
    + apply IH with (2 := H) (6 := O'); try congruence. intros tb bs In'. exact (N tb bs (or_intror In')).
  - apply IH with (2 := H) (6 := O'); try congruence. intros tb bs In'. exact (N tb bs (or_intror In')).
Qed.
End Kept.

(** When the wrapped optimizer is made, the hyperparameters override the keyword arguments. *)
Lemma hyper_given ml glc cvars uvars c s g s' g' r i k v : perform ml glc cvars uvars c s g = (s', g', r) ->
  s_optimizer s = None -> s_optimizer s' = Some i ->
  get (o_hyper (s_kfac s')) k = Some v -> get (o_kwargs (s_kfac s')) k = get (o_hyper (s_kfac s')) k.
Proof.
  intros H O O' V.
  assert (CI : forall s s' g' r, create_inner ml glc cvars s g = (s', g', r) -> s_optimizer s = None ->
    s_optimizer s' <> None -> get (o_hyper (s_kfac s')) k = Some v ->
    get (o_kwargs (s_kfac s')) k = get (o_hyper (s_kfac s')) k).
  { clear. intros s s' g' r H O O' V. unfold create_inner in H. rewrite O in H.
    destruct (match s_layers s with Some _ => _ | None => _ end) as [s1 r1] eqn:E1.
    assert (O1 : s_optimizer s1 = None).
    { destruct (s_layers s); [injection E1 as <- <-; exact O|]. apply layers_kept in E1 as [->|[n ->]]; exact O. }
    destruct r1 as [[]|]; [|injection H as <- <- <-; congruence].
    destruct (truthy _) as [ad|]; [|injection H as <- <- <-; congruence].
    destruct (ad && _)%bool; [injection H as <- <- <-; congruence|].
    set (s2 := if (ad && _)%bool then _ else _) in H.
    assert (O2 : s_optimizer s2 = None) by (unfold s2; destruct (ad && _)%bool; exact O1). clearbody s2.
    destruct (iterations s2 g) as [s3 g3] eqn:It.
    assert (O3 : s_optimizer s3 = None) by (unfold iterations in It; destruct (s_iterations s2); injection It as <- <-; exact O2).
    clear E1. destruct (s_layers _) as [n|]; [|injection H as <- <- <-; cbn in O'; congruence].
    destruct (create _ _ g3) as [g5 [[]|]]; injection H as <- <- <-; [|cbn in O'; congruence].
    cbn in V |- *. now rewrite get_update, V. }
  assert (CT : forall s, call_and_track ml glc cvars uvars s g = (s', g', r) -> s_optimizer s = None ->
    get (o_kwargs (s_kfac s')) k = get (o_hyper (s_kfac s')) k).
  { clear H O s. intros s H O. unfold call_and_track in H.
    destruct (create_inner ml glc cvars s g) as [[s1 g1] r1] eqn:E.
    assert (X : s_optimizer s' = s_optimizer s1 /\ s_kfac s' = s_kfac s1).
    { destruct r1 as [[]|]; [|injection H as <- <- <-; auto]. destruct (s_optimizer s1) eqn:J; [|injection H as <- <- <-; auto].
      destruct (create _ _ g1) as [g2 [[]|]]; injection H as <- <- <-; auto. unfold track. destruct (s_tracked s1); auto. }
    destruct X as [X1 X2]. rewrite X2 in *. apply (CI _ _ _ _ E O); [congruence|exact V]. }
  destruct c as [nv|m l lc|tb bs| |l|]; cbn [perform] in H.
  - unfold set_name in H. rewrite O in H. injection H as <- <- <-. cbn in O'. congruence.
  - destruct (register_layers ml glc m l lc s) as [s1 r1] eqn:E. injection H as <- <- <-.
    apply layers_kept in E as [->|[n ->]]; cbn in O'; congruence.
  - unfold register_batch in H. destruct (register_train_batch _ tb bs); [|destruct tb as [| | | | |[|] fd|]];
      injection H as <- <- <-; cbn in O'; congruence.
  - apply (CI _ _ _ _ H O); [congruence|exact V].
  - unfold minimize in H. destruct (minimize_loss (s_kfac s) l) as [kf|]; [|injection H as <- <- <-; congruence].
    exact (CT _ H O).
  - exact (CT _ H O).
Qed.

(** If a batch was accepted before the wrapped optimizer exists, and no other one was registered
    afterwards, the wrapped optimizer is made with that batch and its size - whatever other calls
    are made before, with whatever failures. *)
Theorem C74_registered_batch_is_used : forall ml glc cvars uvars s g tb bs s1 g1 es s2 g2 i,
  s_optimizer s = None ->
  get (o_hyper (s_kfac s)) "train_batch" = None -> get (o_hyper (s_kfac s)) "batch_size" = None ->
  perform ml glc cvars uvars (CBatch tb bs) s g = (s1, g1, Ok tt) ->
  (forall tb bs, ~ In (Call (CBatch tb bs)) es) ->
  history ml glc cvars uvars es s1 g1 = (s2, g2) -> s_optimizer s2 = Some i ->
  get (i_kwargs i) "train_batch" = Some tb /\
  (truthy bs = Ok true /\ get (i_kwargs i) "batch_size" = Some bs \/
   truthy bs = Ok false /\ (exists v, get (o_kwargs (s_kfac s)) "batch_size" = Some v /\ get (i_kwargs i) "batch_size" = Some v) \/
   truthy bs = Ok false /\ get (o_kwargs (s_kfac s)) "batch_size" = None /\
     exists n, tb = VBatch true (Some (S n)) /\ get (i_kwargs i) "batch_size" = Some (VNum (inject_Z (Z.of_nat (S n))))).
Proof.
  intros ml glc cvars uvars s g tb bs s1 g1 es s2 g2 i O H1 H2 P N H O2. cbn [perform] in P. unfold register_batch in P.
  destruct (register_train_batch (o_kwargs (s_kfac s)) tb bs) as [kw|] eqn:R; [|discriminate P].
  injection P as <- <-.
  destruct (C74_register_train_batch _ _ _ _ R) as (TB & _ & _ & BS).
  pose proof (created_with ml glc cvars uvars "train_batch" ltac:(cbn; intuition discriminate) _ es _ _ _ _ _ N H O H1 TB O2) as A.
  pose proof (created_with ml glc cvars uvars "batch_size" ltac:(cbn; intuition discriminate) _ es _ _ _ _ _ N H O H2 eq_refl O2) as B.
  cbn [with_kfac s_kfac o_kwargs] in B. split; [exact A|]. rewrite B.
  destruct BS as [BS|[(T & (v & V) & E)|BS]]; [left; exact BS| |right; right; exact BS].
  right. left. split; [exact T|]. exists v. split; [exact V|congruence].
Qed.
Print Assumptions C74_registered_batch_is_used.

(** A batch that is refused for not being a tuple of tensors changes nothing. *)
Theorem C74_refused_unchanged_partial : forall ml glc cvars uvars s g tb bs,
  (forall fd, tb <> VBatch true fd) ->
  perform ml glc cvars uvars (CBatch tb bs) s g = (s, g, Raise ValueError).
Proof.
  intros ml glc cvars uvars s g tb bs N. cbn [perform]. unfold register_batch, register_train_batch.
  destruct tb as [| | | | |[|] fd|]; try reflexivity. destruct (N fd eq_refl).
Qed.
Print Assumptions C74_refused_unchanged_partial.

(** One that is refused for its size is kept all the same: adaptive training then starts with this
    batch and without a batch size. *)
Theorem C74_refused_batch_forgotten_refuted : exists o,
  kfac_init same same (mkKArgs VNone VNone (VNum (1 # 100)) VNone VNone VNone (VBool true) VNone "kfac" VNone []) = Ok o /\
  exists s1 s g i,
    perform a_loss a_collection two_vars one_slot (CBatch (VBatch true None) VNone)
      (new_kfac o "kfac" (Some 1%nat) (VStr "mse") None) [] = (s1, [], Raise ValueError) /\
    perform a_loss a_collection two_vars one_slot CApply s1 [] = (s, g, Ok tt) /\
    s_optimizer s = Some i /\ get (i_kwargs i) "train_batch" = Some (VBatch true None) /\
    get (i_kwargs i) "batch_size" = None.
Proof.
  eexists. split; [vm_compute; reflexivity|]. do 4 eexists. split; [vm_compute; reflexivity|].
  split; [vm_compute; reflexivity|]. split; [reflexivity|]. split; reflexivity.
Qed.
Print Assumptions C74_refused_batch_forgotten_refuted.

(** An adaptive optimizer: the batch, a new name, a failing registration of layers, and training. *)
Example C74_life_example : exists o s1 s2 g2 i,
  kfac_init same same (mkKArgs VNone VNone (VNum (1 # 100)) VNone VNone VNone (VBool true) VNone "kfac" VNone []) = Ok o /\
  get (o_hyper o) "train_batch" = None /\ get (o_hyper o) "batch_size" = None /\
  perform a_loss a_collection two_vars one_slot (CBatch (VBatch true (Some 8%nat)) VNone)
    (new_kfac o "kfac" (Some 1%nat) (VStr "mse") None) [] = (s1, [], Ok tt) /\
  history a_loss a_collection two_vars one_slot
    [Call (CName "other"); Call (CLayers None VNone None); Call (CMinimize (VTensor 0)); Call CApply] s1 [] = (s2, g2) /\
  s_optimizer s2 = Some i /\ get (i_kwargs i) "batch_size" = Some (VNum 8).
Proof.
  do 5 eexists. split; [vm_compute; reflexivity|]. split; [reflexivity|]. split; [reflexivity|].
  split; [vm_compute; reflexivity|]. split; [vm_compute; reflexivity|]. split; reflexivity.
Qed.

(* ------------------------------------------------------------------------ *)
(** * C106 *)

(** The optimizer of a loaded model has the settings of the one rebuilt from the saved configuration:
    its hyperparameters, every entry of its configuration except the name, and every keyword
    argument except those that loading gives it (the name, the layers' variables and the loss); and
    the wrapped optimizer, if the state was loaded too, is made with these. *)
Theorem C106_saved_settings_partial : forall ml glc cvars uvars sl sf fits path f name g g' l op,
  load_model ml glc cvars uvars sl sf fits path f name g = (g', Ok l, op) ->
  exists config loss o, f_config f = Some (config, loss) /\ from_config sl sf config = Ok o /\
    o_hyper (s_kfac (l_state l)) = o_hyper o /\
    forall k, ~ In k ["name"; "var_list"; "loss_fn"; "loss"] ->
      get (o_config (s_kfac (l_state l))) k = get (o_config o) k /\
      (get (o_hyper o) k = None -> get (o_kwargs (s_kfac (l_state l))) k = get (o_kwargs o) k) /\
      (forall i, s_optimizer (l_state l) = Some i ->
         get (i_kwargs i) k = match get (o_hyper o) k with Some v => Some v | None => get (o_kwargs o) k end).
Proof.
  intros ml glc cvars uvars sl sf fits path f name g g' l op H. unfold load_model in H.
  destruct (f_model f) as [m|]; [|discriminate H].
  destruct (load_compiled ml glc cvars uvars sl sf fits f m name g) as [g1 r] eqn:E. injection H as <- -> <-.
  unfold load_compiled in E. destruct (f_config f) as [[config loss]|]; [|discriminate E].
  destruct (from_config sl sf config) as [o|] eqn:F; [|discriminate E].
  exists config, loss, o. split; [reflexivity|]. split; [exact F|].
  set (nm := match get config "name" with Some (VStr s) => s | _ => "kfac" end) in E.
  set (s0 := new_kfac o nm None (get_default config "loss" VNone) None) in E.
  destruct (register_layers (compiled ml m loss) glc (Some m) VNone None s0) as [s1 r1] eqn:R1.
  assert (O1 : s_optimizer s1 = None).
  { pose proof R1 as L. apply layers_kept in L as [->|[n ->]]; reflexivity. }
  destruct r1 as [[]|]; [|discriminate E].
  destruct (match name with None | Some "" => _ | Some n => _ end) as [s2 r2] eqn:R2.
  assert (K2 : forall x, ~ In x ["name"; "var_list"; "loss_fn"; "loss"] -> keeps x s1 s2 /\ s_optimizer s2 = None).
  { intros x Hx. assert (NK : forall n, set_name n s1 = (s2, r2) -> keeps x s1 s2 /\ s_optimizer s2 = None).
    { intros n En. split.
      - apply keeps_perform with (ml := ml) (glc := glc) (cvars := cvars) (uvars := uvars) (c := CName n) (g := g) (g' := g) (r := r2);
          [exact Hx|discriminate|]. cbn. now rewrite En.
      - unfold set_name in En. rewrite O1 in En. injection En as <- <-. cbn; congruence. }
    destruct name as [[|ch n]|]; [injection R2 as <- <-; split; [apply keeps_refl|exact O1]|exact (NK _ R2)|
      injection R2 as <- <-; split; [apply keeps_refl|exact O1]]. }
  assert (O2 : s_optimizer s2 = None) by exact (proj2 (K2 "damping" ltac:(cbn; intuition discriminate))).
  destruct r2 as [[]|]; [|destruct (f_weights f); discriminate E].
  assert (K : forall x, ~ In x ["name"; "var_list"; "loss_fn"; "loss"] -> keeps x s0 s2).
  { intros x Hx. apply keeps_trans with (2 := proj1 (K2 x Hx)). exact (keeps_layers _ _ x Hx _ _ _ _ _ _ R1). }
  destruct (f_weights f) as [ws|].
  - destruct (minimize (compiled ml m loss) glc cvars uvars (VTensor 0) s2 g) as [[s3 g3] r3] eqn:M.
    destruct r3 as [[]|]; [|discriminate E]. injection E as <- <-. cbn [l_state].
    assert (P : perform (compiled ml m loss) glc cvars uvars (CMinimize (VTensor 0)) s2 g = (s3, g3, Ok tt)) by exact M.
    assert (K3 : forall x, ~ In x ["name"; "var_list"; "loss_fn"; "loss"] -> keeps x s0 s3).
    { intros x Hx. apply keeps_trans with (1 := K x Hx).
      assert (NC : forall tb bs, CMinimize (VTensor 0) <> CBatch tb bs) by (intros; discriminate).
      exact (keeps_perform _ _ _ _ x Hx _ _ _ _ _ _ NC P). }
    destruct (K3 "damping" ltac:(cbn; intuition discriminate)) as (Hy & _).
    split; [exact Hy|]. intros k Nk. destruct (K3 k Nk) as (_ & B & C).
    split; [apply C; intros ->; apply Nk; now left|]. split; [exact B|]. intros i Oi.
    destruct (C107_created_for _ _ _ _ _ _ _ _ _ _ _ P O2 Oi) as (_ & -> & _).
    destruct (get (o_hyper o) k) as [v|] eqn:V; [|exact (B V)].
    assert (Hy' : get (o_hyper (s_kfac s3)) k = Some v) by (rewrite Hy; exact V).
    rewrite (hyper_given _ _ _ _ _ _ _ _ _ _ _ k v P O2 Oi Hy'). exact Hy'.
  - injection E as <- <-. cbn [l_state].
    destruct (K "damping" ltac:(cbn; intuition discriminate)) as (Hy & _).
    split; [exact Hy|]. intros k Nk. destruct (K k Nk) as (_ & B & C).
    split; [apply C; intros ->; apply Nk; now left|]. split; [exact B|]. intros i Oi. congruence.
Qed.
Print Assumptions C106_saved_settings_partial.
