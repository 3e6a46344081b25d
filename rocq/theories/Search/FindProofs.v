(** Proofs about what the scan finds (C63). *)
From Coq Require Import String List Arith ZArith Bool Lia Permutation.
From Verif.Base Require Import Py.
From Verif.Graph Require Import Model.
From Verif.Registry Require Import Model Spec BlockProofs HistoryProofs LossProofs.
From Verif.Match Require Model Spec LayerProofs.
From Verif.Search Require Import Model Spec FilterProofs RegisterProofs.
Import ListNotations.
Open Scope string_scope.
Open Scope list_scope.
Local Arguments String.eqb : simpl never.

Section Find.
Variables (pr : program) (varlist : list nat) (m : list (nat * nat)).
Hypothesis sep : separate pr varlist.
Hypothesis table : tensors_to_variables pr varlist = Ok m.
Notation g := (pr_graph pr).

Lemma table_complete v t : stands pr varlist t v -> In (t, v) m.
Proof.
  intros (I & ts & E & J). clear sep. revert m table.
  induction varlist as [|w vl IH]; intros m0 H; [destruct I|].
  unfold tensors_to_variables in H. cbn in H. apply bind_ok in H as (l & H & E0). injection E0 as <-.
  apply bind_ok in H as (y & A & H). apply bind_ok in A as (ts' & A & E1). injection E1 as <-.
  apply bind_ok in H as (ys & B & E1). injection E1 as <-. cbn. apply in_app_iff. destruct I as [->|I].
  - left. rewrite E in A. injection A as <-. apply in_map_iff. eauto.
  - right. apply (IH I (concat ys)). unfold tensors_to_variables. rewrite B. reflexivity.
Qed.
Lemma var_of_total l t v : In (t, v) l -> var_of l t <> None.
Proof.
  induction l as [|[t' w] l IH]; cbn; [intros []|]. intros [E|I].
  - injection E as -> ->. rewrite Nat.eqb_refl. destruct (var_of l t); discriminate.
  - specialize (IH I). destruct (var_of l t); [discriminate|]. congruence.
Qed.
Lemma var_of_entry l t v : var_of l t = Some v -> In (t, v) l.
Proof.
  induction l as [|[t' w] l IH]; cbn; [discriminate|]. destruct (var_of l t) as [u|] eqn:E.
  - intros [= ->]. right. apply IH. reflexivity.
  - destruct (Nat.eqb_spec t' t) as [->|]; [|discriminate]. intros [= ->]. left. reflexivity.
Qed.
Lemma var_of_stands t v : var_of m t = Some v <-> stands pr varlist t v.
Proof.
  split.
  - intros E. apply var_of_entry in E. apply (ttv_vars _ _ _ table _ _ E).
  - intros S. pose proof (var_of_total _ _ _ (table_complete _ _ S)) as N.
    destruct (var_of m t) as [w|] eqn:E; [|congruence]. f_equal. apply var_of_entry in E.
    apply (sep t w v); [apply (ttv_vars _ _ _ table _ _ E)|exact S].
Qed.
Lemma trains_iff o v : trains pr varlist o v <-> match o with Some t => var_of m t | None => None end = v.
Proof.
  unfold trains. destruct v as [v|].
  - split.
    + intros (x & -> & S). apply var_of_stands, S.
    + destruct o as [t|]; [|discriminate]. intros E. exists t. split; [reflexivity|]. apply var_of_stands, E.
  - split.
    + intros H. destruct o as [t|]; [|reflexivity]. destruct (var_of m t) as [w|] eqn:E; [|reflexivity].
      exfalso. apply (H t w eq_refl). apply var_of_stands, E.
    + intros E x v -> S. apply var_of_stands in S. congruence.
Qed.
Lemma optional_var_at b n o : Match.Model.lookup b n = option_map Tn o ->
  optional_var m b n = match o with Some t => var_of m t | None => None end.
Proof. intros E. unfold optional_var. rewrite E. destruct o; reflexivity. Qed.

Lemma layer_params_iff ty a b p :
  layer_params pr varlist ty a b p <->
  match match a with Some t => var_of m t | None => None end, match b with Some t => var_of m t | None => None end with
  | Some v, Some w => p = PTup [v; w]
  | Some v, None => p = PVar v
  | None, Some w => ty = RT_batch_norm /\ p = PVar w
  | None, None => False
  end.
Proof.
  unfold layer_params. split.
  - intros (v & w & A & B & H). apply trains_iff in A, B. rewrite A, B. exact H.
  - intros H. do 2 eexists. split; [apply trains_iff; reflexivity|]. split; [apply trains_iff; reflexivity|]. exact H.
Qed.

(* ------------------------------------------------------------------------ *)
(** * Records from bindings *)

Lemma affine_record b cons t l ax :
  Match.Spec.describes b t l ax ->
  match record_affine_from_bindings pr b cons m with
  | Ok (Some r) => r_outputs r = t /\ r_inputs r = Match.Spec.l_in l /\
      layer_params pr varlist (r_type r) (Some (Match.Spec.l_weights l)) (Match.Spec.l_biases l) (r_params r) /\
      let ty := Match.Model.tg_type g (Match.Spec.l_op l) in
      ((ty = "MatMul" \/ ty = "BatchMatMulV2") /\ r_type r = RT_fully_connected /\ r_dense r = true /\ (r_strides r, r_nhwc r) = ([], true) /\
         rank pr (Match.Spec.l_in l) <= 3 /\ pr_transposed pr (Match.Spec.l_op l) = false \/
       (ty = "Gather" \/ ty = "GatherV2" \/ ty = "ResourceGather") /\ r_type r = RT_fully_connected /\ r_dense r = false /\ (r_strides r, r_nhwc r) = ([], true) /\
         rank pr (Match.Spec.l_in l) <= 2 \/
       ty = "Conv2D" /\ r_type r = RT_conv2d /\ r_dense r = true /\ (r_strides r, r_nhwc r) = (pr_strides pr (Match.Spec.l_op l), pr_nhwc pr (Match.Spec.l_op l)))
  | Ok None => var_of m (Match.Spec.l_weights l) = None
  | Raise _ => True
  end.
Proof.
  intros D. unfold record_affine_from_bindings, tensor_binding, op_binding, binding.
  pose proof (D "weights") as Dw. pose proof (D "in") as Di. pose proof (D "pre_activations") as Dp.
  pose proof (D "linear_op") as Dl. pose proof (D "biases") as Db. cbn in Dw, Di, Dp, Dl, Db.
  vm_compute (String.eqb _ _) in Dw. rewrite Dw. cbn [bind].
  vm_compute (String.eqb _ _) in Di. rewrite Di. cbn [bind].
  vm_compute (String.eqb _ _) in Dp. rewrite Dp. cbn [bind].
  vm_compute (String.eqb _ _) in Dl. rewrite Dl. cbn [bind].
  vm_compute (String.eqb _ _) in Db. rewrite (optional_var_at _ _ _ Db). cbn [var_at].
  set (ty := Match.Model.tg_type g (Match.Spec.l_op l)).
  assert (P : forall ty' w bi, var_of m (Match.Spec.l_weights l) = Some w ->
     match Match.Spec.l_biases l with Some t => var_of m t | None => None end = bi ->
     layer_params pr varlist ty' (Some (Match.Spec.l_weights l)) (Match.Spec.l_biases l)
       match bi with Some v => PTup [w; v] | None => PVar w end).
  { intros ty' w bi E1 E2. apply layer_params_iff. rewrite E1, E2. destruct bi; reflexivity. }
  destruct (match Match.Spec.l_biases l with Some t => var_of m t | None => None end) as [bi|] eqn:B,
    (var_of m (Match.Spec.l_weights l)) as [w|] eqn:W; [| exact I | |exact eq_refl].
  all: specialize (P RT_fully_connected w _ eq_refl eq_refl) as P1; specialize (P RT_conv2d w _ eq_refl eq_refl) as P2; clear P.
  all: destruct (String.eqb_spec ty "MatMul") as [T1|T1], (String.eqb_spec ty "BatchMatMulV2") as [T2|T2],
    (String.eqb_spec ty "Gather") as [T3|T3], (String.eqb_spec ty "GatherV2") as [T4|T4],
    (String.eqb_spec ty "ResourceGather") as [T5|T5], (String.eqb_spec ty "Conv2D") as [T6|T6]; try congruence;
    cbn [orb andb negb];
    repeat match goal with |- context [if ?x then _ else _] => let E := fresh in destruct x eqn:E end; try exact I;
    repeat match goal with H : (_ || _)%bool = false |- _ => apply orb_false_iff in H as [? ?] end;
    repeat match goal with H : Nat.leb _ _ = false |- _ => apply Nat.leb_gt in H end;
    cbn [r_outputs r_inputs r_type r_params r_dense r_strides r_nhwc]; (split; [reflexivity|]); (split; [reflexivity|]);
    (split; [assumption|]); cbn zeta;
    (first [left; repeat split; solve [auto|lia] | right; left; repeat split; solve [auto|lia] | right; right; repeat split; solve [auto|lia]]).
Qed.

Lemma scale_record b cons t i s sh :
  Match.Spec.scale_describes b t i s sh ->
  match record_scale_and_shift_from_bindings b cons m with
  | Ok (Some r) => r_outputs r = t /\ r_inputs r = i /\ r_type r = RT_scale_and_shift /\ r_dense r = true /\ (r_strides r, r_nhwc r) = ([], true) /\
      layer_params pr varlist RT_scale_and_shift (Some s) sh (r_params r)
  | Ok None => var_of m s = None
  | Raise _ => True
  end.
Proof.
  intros D. unfold record_scale_and_shift_from_bindings, tensor_binding, op_binding, binding.
  pose proof (D "scale") as Dw. pose proof (D "in") as Di. pose proof (D "out") as Dp. pose proof (D "shift") as Db.
  vm_compute (String.eqb _ _) in Dw. rewrite Dw. cbn [bind].
  vm_compute (String.eqb _ _) in Di. rewrite Di. cbn [bind].
  vm_compute (String.eqb _ _) in Dp. rewrite Dp. cbn [bind].
  vm_compute (String.eqb _ _) in Db. rewrite (optional_var_at _ _ _ Db). cbn [var_at].
  destruct (match sh with Some t => var_of m t | None => None end) as [bi|] eqn:B,
    (var_of m s) as [w|] eqn:W; [| exact I | |exact eq_refl];
    (repeat split; apply layer_params_iff; rewrite W, B; reflexivity).
Qed.
Lemma norm_record b cons t i s o :
  Match.Spec.norm_describes b t i s o ->
  match record_batch_norm_from_bindings b cons m with
  | Ok (Some r) => r_outputs r = t /\ r_inputs r = i /\ r_type r = RT_batch_norm /\ r_dense r = true /\ (r_strides r, r_nhwc r) = ([], true) /\
      layer_params pr varlist RT_batch_norm s o (r_params r)
  | Ok None => forall p, ~ layer_params pr varlist RT_batch_norm s o p
  | Raise _ => True
  end.
Proof.
  intros (Dp & Di & Ds & Do). unfold record_batch_norm_from_bindings, tensor_binding, op_binding, binding.
  rewrite Di. cbn [bind]. rewrite Dp. cbn [bind]. rewrite (optional_var_at _ _ _ Ds), (optional_var_at _ _ _ Do).
  assert (P := fun p => proj1 (layer_params_iff RT_batch_norm s o p)).
  assert (P' := fun p => proj2 (layer_params_iff RT_batch_norm s o p)).
  destruct (match s with Some t => var_of m t | None => None end) as [v|],
    (match o with Some t => var_of m t | None => None end) as [w|]; cbn [option_map].
  - repeat split. apply P'. reflexivity.
  - repeat split. apply P'. reflexivity.
  - repeat split. apply P'. auto.
  - intros p H. apply (P p H).
Qed.

Lemma affine_tensors b cons r : record_affine_from_bindings pr b cons m = Ok (Some r) -> r_tensors r = cons.
Proof.
  unfold record_affine_from_bindings. intros H. apply bind_ok in H as (w & _ & H). apply bind_ok in H as (i & _ & H).
  apply bind_ok in H as (o & _ & H). apply bind_ok in H as (l & _ & H).
  destruct (optional_var m b "biases"), (var_at m w); try discriminate;
    repeat match type of H with context [if ?x then _ else _] => destruct x end; try discriminate; injection H as <-; reflexivity.
Qed.
Lemma scale_tensors b cons r : record_scale_and_shift_from_bindings b cons m = Ok (Some r) -> r_tensors r = cons.
Proof.
  unfold record_scale_and_shift_from_bindings. intros H. apply bind_ok in H as (w & _ & H). apply bind_ok in H as (i & _ & H).
  apply bind_ok in H as (o & _ & H). destruct (optional_var m b "shift"), (var_at m w); try discriminate; injection H as <-; reflexivity.
Qed.
Lemma norm_tensors b cons r : record_batch_norm_from_bindings b cons m = Ok (Some r) -> r_tensors r = cons.
Proof.
  unfold record_batch_norm_from_bindings. intros H. apply bind_ok in H as (i & _ & H).
  apply bind_ok in H as (o & _ & H). destruct (optional_var m b "offset"), (optional_var m b "scale"); try discriminate; injection H as <-; reflexivity.
Qed.
Lemma nodes_of_match q P f t b c : Match.Spec.wf_graph g ->
  In q [Match.Model.gp_Affine g; Match.Model.gp_ScaleAndShift g; Match.Model.gp_BatchNorm g;
        Match.Model.gp_FusedBatchNormOutput g; Match.Model.gp_Embed g] ->
  Match.Spec.denotes q P -> Match.Model.matcher_with_consumed g q = Ok f ->
  f (Match.Model.DNode (Tn t)) = Ok (Match.Model.VPair b c) -> is_match pr t c.
Proof.
  intros W I D E Ef. destruct (Match.LayerProofs.consumed_general g q P W D) as (f' & E' & R). rewrite E in E'. injection E' as <-.
  destruct (R (Tn t)) as [(b' & c' & used & K & C & Ef')|(_ & v & Ef' & T)]; rewrite Ef in Ef'; injection Ef' as; subst; [|discriminate].
  exists q, P, b', used. auto.
Qed.

(* ------------------------------------------------------------------------ *)
(** * One pattern *)

Notation kind := (rtype -> nat -> option nat -> option nat -> bool -> list Z * bool -> Prop).
Definition step_ok (t : nat) (K : kind) (d d' : list (params * list record)) : Prop :=
  (exists r, d' = add_record d r /\ record_for pr varlist t r /\
     forall ty i a b dn st, K ty i a b dn st -> r_type r = ty) \/
  (d' = d /\ forall ty i a b dn st, K ty i a b dn st ->
     exists i a b dn st, K ty i a b dn st /\ forall p, ~ layer_params pr varlist ty a b p).

(** The layers that each of the five patterns is about. *)
Definition k_affine (t : nat) : kind := fun ty i a b dn st =>
  exists l, Match.Spec.dense_layer g t l /\ i = Match.Spec.l_in l /\ a = Some (Match.Spec.l_weights l) /\ b = Match.Spec.l_biases l /\ dn = true /\
    (ty = RT_fully_connected /\ st = ([], true) /\ Match.Spec.has_type g (Match.Spec.l_op l) ["MatMul"; "BatchMatMulV2"] \/
     ty = RT_conv2d /\ st = (pr_strides pr (Match.Spec.l_op l), pr_nhwc pr (Match.Spec.l_op l)) /\ Match.Spec.has_type g (Match.Spec.l_op l) ["Conv2D"]).
Definition k_embed (t : nat) : kind := fun ty i a b dn st =>
  exists l ax, Match.Spec.embedding g t l ax /\ i = Match.Spec.l_in l /\ a = Some (Match.Spec.l_weights l) /\ b = None /\ dn = false /\
    ty = RT_fully_connected /\ st = ([], true).
Definition k_scale (t : nat) : kind := fun ty i a b dn st =>
  exists s, Match.Spec.scale_shift g t i s b /\ a = Some s /\ ty = RT_scale_and_shift /\ dn = true /\ st = ([], true).
Definition k_norm (t : nat) : kind := fun ty i a b dn st =>
  Match.Spec.batch_norm g t i a b /\ ty = RT_batch_norm /\ dn = true /\ st = ([], true).
Definition k_fused (t : nat) : kind := fun ty i a b dn st =>
  exists s o, Match.Spec.fused_norm g t i s o /\ a = Some s /\ b = Some o /\ ty = RT_batch_norm /\ dn = true /\ st = ([], true).

Lemma kinds_cover t ty i a b dn st :
  layer_at pr t ty i a b dn st <->
  k_affine t ty i a b dn st \/ k_scale t ty i a b dn st \/ k_norm t ty i a b dn st \/ k_fused t ty i a b dn st \/ k_embed t ty i a b dn st.
Proof.
  unfold k_affine, k_embed, k_scale, k_norm, k_fused. split.
  - intros H. inversion H; subst.
    + left. exists l. auto 10.
    + left. exists l. auto 10.
    + do 4 right. exists l, ax. auto 10.
    + right; left. exists s. auto 10.
    + do 2 right; left. auto.
    + do 3 right; left. exists s, o. auto 10.
  - intros [H|[H|[H|[H|H]]]].
    + destruct H as (l & D & -> & -> & -> & -> & [(-> & -> & T)|(-> & -> & T)]); [apply la_matmul|apply la_conv]; assumption.
    + destruct H as (s & D & -> & -> & -> & ->). apply la_scale, D.
    + destruct H as (D & -> & -> & ->). apply la_norm, D.
    + destruct H as (s & o & D & -> & -> & -> & -> & ->). apply la_fused, D.
    + destruct H as (l & ax & D & -> & -> & -> & -> & -> & ->). eapply la_embed, D.
Qed.

Definition pattern_ok (mr : (Match.Model.datum -> res Match.Model.value) * (Match.Model.bindings -> list node -> list (nat * nat) -> res (option record)))
    (K : nat -> kind) : Prop :=
  forall t d d', try_pattern m (Tn t) d mr = Ok d' -> step_ok t (K t) d d'.

Lemma in2 (x a b : string) : In x [a; b] <-> x = a \/ x = b.
Proof. cbn. split; [intros [<-|[<-|[]]]; auto|intros [->| ->]; auto]. Qed.

Lemma affine_ok f : Match.Spec.wf_graph g -> Match.Model.matcher_with_consumed g (Match.Model.gp_Affine g) = Ok f ->
  pattern_ok (f, record_affine_from_bindings pr) k_affine.
Proof.
  intros W E t d d' H. destruct (Match.LayerProofs.affine_recognised g W) as (f' & E' & R). rewrite E in E'. injection E' as <-.
  unfold try_pattern in H. cbn [fst snd] in H. destruct (R (Tn t)) as [(t' & l & b & c & [= <-] & D & U & De & Ef)|(N & v & Ef & T)].
  - rewrite Ef in H. cbn [bind Match.Model.truthy] in H.
    pose proof (affine_record b c t l None De) as A.
    pose proof (affine_tensors b c) as At. pose proof (nodes_of_match _ _ f t b c W (or_introl eq_refl) (Match.LayerProofs.affine_denotes g) E Ef) as NODES.
    destruct (record_affine_from_bindings pr b c m) as [[r|]|e]; cbn [bind] in H; [| |discriminate].
    + injection H as <-. destruct A as (A1 & A2 & A3 & A4). cbn zeta in A4. left. exists r. split; [reflexivity|].
      assert (TT : Match.Spec.has_type g (Match.Spec.l_op l) ["Conv2D"; "MatMul"; "BatchMatMulV2"]).
      { inversion D; subst; match goal with H : Match.Spec.linear _ _ _ _ |- _ => destruct H as (? & _) end; assumption. }
      unfold Match.Spec.has_type in TT. cbn in TT.
      split.
      * exists (Some (Match.Spec.l_weights l)), (Match.Spec.l_biases l). split; [|split; [exact A3|split; [exact A1|split; [rewrite (At _ eq_refl); exact NODES|]]]].
        2:{ intros Ty. rewrite A2. destruct A4 as [(T & _ & -> & _ & Rk & Tr)|[(T & _)|(_ & Ty' & _)]].
            - split; [exact Rk|]. intros l' _ D'. apply U in D'. subst l'. exact Tr.
            - exfalso. clear - T TT. repeat destruct TT as [TT|TT]; try rewrite <- TT in T; intuition discriminate.
            - congruence. }
        rewrite A2. destruct A4 as [(T & -> & -> & -> & _)|[(T & -> & -> & -> & _)|(T & -> & -> & ->)]].
        -- apply la_matmul; [exact D|]. apply in2, T.
        -- exfalso. clear - T TT. repeat destruct TT as [TT|TT]; try rewrite <- TT in T; intuition discriminate.
        -- apply la_conv; [exact D|]. left. symmetry. exact T.
      * intros ty i a b' dn st (l' & D' & _ & _ & _ & _ & K). apply U in D'. subst l'.
        destruct A4 as [(T & -> & _)|[(T & -> & _)|(T & -> & _)]], K as [(-> & _ & Q)|(-> & _ & Q)]; try reflexivity;
          exfalso; unfold Match.Spec.has_type in Q; cbn in Q; clear - T Q; intuition congruence.
    + injection H as <-. right. split; [reflexivity|]. intros ty i a b' dn st K. exists i, a, b', dn, st. split; [exact K|].
      destruct K as (l' & D' & _ & -> & -> & _ & K). apply U in D'. subst l'. intros p Q. apply layer_params_iff in Q.
      rewrite A in Q. destruct (match Match.Spec.l_biases l with Some t => var_of m t | None => None end); [|exact Q].
      destruct Q as [Q _], K as [(-> & _)|(-> & _)]; discriminate.
  - rewrite Ef in H. cbn [bind] in H. rewrite T in H. injection H as <-. right. split; [reflexivity|].
    intros ty i a b dn st (l & D & _). exfalso. exact (N t l eq_refl D).
Qed.

Lemma embed_ok f : Match.Spec.wf_graph g -> Match.Model.matcher_with_consumed g (Match.Model.gp_Embed g) = Ok f ->
  pattern_ok (f, record_affine_from_bindings pr) k_embed.
Proof.
  intros W E t d d' H. destruct (Match.LayerProofs.embed_recognised g W) as (f' & E' & R). rewrite E in E'. injection E' as <-.
  unfold try_pattern in H. cbn [fst snd] in H. destruct (R (Tn t)) as [(t' & l & ax & b & c & [= <-] & D & U & De & Ef)|(N & v & Ef & T)].
  - rewrite Ef in H. cbn [bind Match.Model.truthy] in H.
    pose proof (affine_record b c t l ax De) as A.
    pose proof (affine_tensors b c) as At. pose proof (nodes_of_match _ _ f t b c W (or_intror (or_intror (or_intror (or_intror (or_introl eq_refl))))) (Match.LayerProofs.embed_denotes g) E Ef) as NODES.
    assert (Bn : Match.Spec.l_biases l = None) by (inversion D; reflexivity).
    destruct (record_affine_from_bindings pr b c m) as [[r|]|e]; cbn [bind] in H; [| |discriminate].
    + injection H as <-. destruct A as (A1 & A2 & A3 & A4). cbn zeta in A4. left. exists r. split; [reflexivity|].
      assert (TT : let ty := Match.Model.tg_type g (Match.Spec.l_op l) in ty = "Gather" \/ ty = "GatherV2" \/ ty = "ResourceGather").
      { cbn zeta. inversion D; subst; unfold Match.Spec.has_type in *; cbn in *; intuition. }
      cbn zeta in TT. rewrite Bn in A3.
      destruct A4 as [(T & _)|[(T & A5 & A6 & A7 & A8)|(T & _)]]; [exfalso; clear - T TT; intuition congruence| |exfalso; clear - T TT; intuition congruence].
      split.
      * exists (Some (Match.Spec.l_weights l)), None. split; [|split; [exact A3|split; [exact A1|split; [rewrite (At _ eq_refl); exact NODES|]]]].
        2:{ intros _. rewrite A2, A6. split; [exact A8|discriminate]. }
        rewrite A2, A5, A6, A7. eapply la_embed, D.
      * intros ty i a b' dn st (l' & ax' & D' & _ & _ & _ & _ & -> & _). exact A5.
    + injection H as <-. right. split; [reflexivity|]. intros ty i a b' dn st K. exists i, a, b', dn, st. split; [exact K|].
      destruct K as (l' & ax' & D' & _ & -> & -> & _ & -> & _). apply U in D' as [-> _]. intros p Q. apply layer_params_iff in Q.
      rewrite A in Q. exact Q.
  - rewrite Ef in H. cbn [bind] in H. rewrite T in H. injection H as <-. right. split; [reflexivity|].
    intros ty i a b dn st (l & ax & D & _). exfalso. exact (N t l ax eq_refl D).
Qed.

Lemma scale_ok f : Match.Spec.wf_graph g -> Match.Model.matcher_with_consumed g (Match.Model.gp_ScaleAndShift g) = Ok f ->
  pattern_ok (f, record_scale_and_shift_from_bindings) k_scale.
Proof.
  intros W E t d d' H. destruct (Match.LayerProofs.scale_shift_recognised g W) as (f' & E' & R). rewrite E in E'. injection E' as <-.
  unfold try_pattern in H. cbn [fst snd] in H. destruct (R (Tn t)) as [(t' & i & s & sh & b & c & [= <-] & D & De & Ef)|(N & v & Ef & T)].
  - rewrite Ef in H. cbn [bind Match.Model.truthy] in H. pose proof (scale_record b c t i s sh De) as A.
    pose proof (scale_tensors b c) as At. pose proof (nodes_of_match _ _ f t b c W (or_intror (or_introl eq_refl)) (Match.LayerProofs.scale_shift_denotes g) E Ef) as NODES.
    destruct (record_scale_and_shift_from_bindings b c m) as [[r|]|e]; cbn [bind] in H; [| |discriminate].
    + injection H as <-. destruct A as (A1 & A2 & A3 & A4 & A5 & A6). left. exists r. split; [reflexivity|]. split.
      * exists (Some s), sh. rewrite A2, A3, A4, A5. split; [apply la_scale, D|]. rewrite (At _ eq_refl). repeat split; auto; intros; exfalso; congruence.
      * intros ty i' a b' dn st (s' & _ & _ & -> & _). exact A3.
    + injection H as <-. right. split; [reflexivity|]. intros ty i' a b' dn st (s' & _ & _ & -> & -> & ->).
      exists i, (Some s), sh, true, ([], true). split; [exists s; auto|]. intros p Q. apply layer_params_iff in Q. rewrite A in Q.
      destruct (match sh with Some t => var_of m t | None => None end); [destruct Q; discriminate|exact Q].
  - rewrite Ef in H. cbn [bind] in H. rewrite T in H. injection H as <-. right. split; [reflexivity|].
    intros ty i a b dn st (s & D & _). exfalso. exact (N t i s b eq_refl D).
Qed.
Lemma norm_ok f : Match.Spec.wf_graph g -> Match.Model.matcher_with_consumed g (Match.Model.gp_BatchNorm g) = Ok f ->
  pattern_ok (f, record_batch_norm_from_bindings) k_norm.
Proof.
  intros W E t d d' H. destruct (Match.LayerProofs.bn_recognised g W) as (f' & E' & R). rewrite E in E'. injection E' as <-.
  unfold try_pattern in H. cbn [fst snd] in H. destruct (R (Tn t)) as [(t' & i & s & o & b & c & [= <-] & D & De & Ef)|(N & v & Ef & T)].
  - rewrite Ef in H. cbn [bind Match.Model.truthy] in H. pose proof (norm_record b c t i s o De) as A.
    pose proof (norm_tensors b c) as At. pose proof (nodes_of_match _ _ f t b c W (or_intror (or_intror (or_introl eq_refl))) (Match.LayerProofs.bn_denotes g) E Ef) as NODES.
    destruct (record_batch_norm_from_bindings b c m) as [[r|]|e]; cbn [bind] in H; [| |discriminate].
    + injection H as <-. destruct A as (A1 & A2 & A3 & A4 & A5 & A6). left. exists r. split; [reflexivity|]. split.
      * exists s, o. rewrite A2, A3, A4, A5. split; [apply la_norm, D|]. rewrite (At _ eq_refl). repeat split; auto; intros; exfalso; congruence.
      * intros ty i' a b' dn st (_ & -> & _). exact A3.
    + injection H as <-. right. split; [reflexivity|]. intros ty i' a b' dn st (_ & -> & -> & ->).
      exists i, s, o, true, ([], true). split; [split; auto|exact A].
  - rewrite Ef in H. cbn [bind] in H. rewrite T in H. injection H as <-. right. split; [reflexivity|].
    intros ty i a b dn st (D & _). exfalso. exact (N t i a b eq_refl D).
Qed.
Lemma fused_ok f : Match.Spec.wf_graph g -> Match.Model.matcher_with_consumed g (Match.Model.gp_FusedBatchNormOutput g) = Ok f ->
  pattern_ok (f, record_batch_norm_from_bindings) k_fused.
Proof.
  intros W E t d d' H. destruct (Match.LayerProofs.fused_recognised g W) as (f' & E' & R). rewrite E in E'. injection E' as <-.
  unfold try_pattern in H. cbn [fst snd] in H. destruct (R (Tn t)) as [(t' & i & s & o & b & c & [= <-] & D & De & Ef)|(N & v & Ef & T)].
  - rewrite Ef in H. cbn [bind Match.Model.truthy] in H. pose proof (norm_record b c t i (Some s) (Some o) De) as A.
    pose proof (norm_tensors b c) as At. pose proof (nodes_of_match _ _ f t b c W (or_intror (or_intror (or_intror (or_introl eq_refl)))) (Match.LayerProofs.fused_denotes g) E Ef) as NODES.
    destruct (record_batch_norm_from_bindings b c m) as [[r|]|e]; cbn [bind] in H; [| |discriminate].
    + injection H as <-. destruct A as (A1 & A2 & A3 & A4 & A5 & A6). left. exists r. split; [reflexivity|]. split.
      * exists (Some s), (Some o). rewrite A2, A3, A4, A5. split; [apply la_fused, D|]. rewrite (At _ eq_refl). repeat split; auto; intros; exfalso; congruence.
      * intros ty i' a b' dn st (_ & _ & _ & _ & _ & -> & _). exact A3.
    + injection H as <-. right. split; [reflexivity|]. intros ty i' a b' dn st (_ & _ & _ & _ & _ & -> & -> & ->).
      exists i, (Some s), (Some o), true, ([], true). split; [exists s, o; auto 10|exact A].
  - rewrite Ef in H. cbn [bind] in H. rewrite T in H. injection H as <-. right. split; [reflexivity|].
    intros ty i a b dn st (s & o & D & _). exfalso. exact (N t i s o eq_refl D).
Qed.

(* ------------------------------------------------------------------------ *)
(** * The scan *)

Lemma add_keeps d r p l x : In (p, l) d -> In x l -> exists l', In (p, l') (add_record d r) /\ In x l'.
Proof.
  induction d as [|[q k] d IH]; cbn; [intros []|]. intros I J.
  destruct (params_eqb q (r_params r)); destruct I as [E|I].
  - injection E as -> ->. exists (l ++ [r]). split; [left; reflexivity|]. apply in_app_iff. auto.
  - exists l. split; [right; exact I|exact J].
  - injection E as -> ->. exists l. split; [left; reflexivity|exact J].
  - destruct (IH I J) as (l' & A & B). exists l'. split; [right; exact A|exact B].
Qed.
Lemma add_adds d r : exists l, In (r_params r, l) (add_record d r) /\ In r l.
Proof.
  induction d as [|[q k] d IH]; cbn.
  - exists [r]. split; left; reflexivity.
  - destruct (params_eqb q (r_params r)) eqn:E.
    + apply params_eqb_spec in E. subst q. exists (k ++ [r]). split; [left; reflexivity|]. apply in_app_iff. right. left. reflexivity.
    + destruct IH as (l & A & B). exists l. split; [right; exact A|exact B].
Qed.
Definition has_rec (d : list (params * list record)) (P : record -> Prop) : Prop := exists r, candidate d r /\ P r.
Lemma has_add d r P : has_rec d P -> has_rec (add_record d r) P.
Proof.
  intros (x & (l & I & J) & Px). destruct (add_keeps d r _ _ x I J) as (l' & A & B). exists x. split; [exists l'; auto|exact Px].
Qed.
Lemma step_has t K d d' P : step_ok t K d d' -> has_rec d P -> has_rec d' P.
Proof. intros [(r & -> & _)|[-> _]] H; [apply has_add, H|exact H]. Qed.

Lemma one_tensor ml t d d' :
  Match.Spec.wf_graph g -> match_register_list pr = Ok ml -> foldM (try_pattern m (Tn t)) ml d = Ok d' ->
  (forall P, has_rec d P -> has_rec d' P) /\
  (forall p l r, In (p, l) d' -> In r l -> (exists l, In (p, l) d /\ In r l) \/ record_for pr varlist t r) /\
  (forall ty, trained_layer pr varlist t ty -> has_rec d' (fun r => r_type r = ty /\ r_outputs r = t)).
Proof.
  intros W Hml H. unfold match_register_list in Hml.
  apply bind_ok in Hml as (f1 & E1 & Hml). apply bind_ok in Hml as (f2 & E2 & Hml). apply bind_ok in Hml as (f3 & E3 & Hml).
  apply bind_ok in Hml as (f4 & E4 & Hml). apply bind_ok in Hml as (f5 & E5 & Hml). injection Hml as <-.
  cbn [foldM] in H. apply bind_ok in H as (d1 & H1 & H). apply bind_ok in H as (d2 & H2 & H). apply bind_ok in H as (d3 & H3 & H).
  apply bind_ok in H as (d4 & H4 & H). apply bind_ok in H as (d5 & H5 & H). injection H as <-.
  apply (affine_ok f1 W E1) in H1. apply (scale_ok f2 W E2) in H2. apply (norm_ok f3 W E3) in H3.
  apply (fused_ok f4 W E4) in H4. apply (embed_ok f5 W E5) in H5.
  assert (Snd : forall K d d', step_ok t K d d' -> forall p l r, In (p, l) d' -> In r l -> (exists l, In (p, l) d /\ In r l) \/ record_for pr varlist t r).
  { intros K e e' [(x & -> & Rx & _)|[-> _]] p l r I J; [|eauto].
    apply add_record_In in I as [I|(-> & [->|(l0 & I & ->)])]; [eauto| |].
    - destruct J as [<-|[]]. auto.
    - apply in_app_iff in J as [J|[<-|[]]]; eauto. }
  split; [|split].
  - intros P Hp. exact (step_has _ _ _ _ _ H5 (step_has _ _ _ _ _ H4 (step_has _ _ _ _ _ H3 (step_has _ _ _ _ _ H2 (step_has _ _ _ _ _ H1 Hp))))).
  - intros p l r I J.
    destruct (Snd _ _ _ H5 p l r I J) as [(l4 & I4 & J4)|]; [|auto].
    destruct (Snd _ _ _ H4 p l4 r I4 J4) as [(l3 & I3 & J3)|]; [|auto].
    destruct (Snd _ _ _ H3 p l3 r I3 J3) as [(l2 & I2 & J2)|]; [|auto].
    destruct (Snd _ _ _ H2 p l2 r I2 J2) as [(l1 & I1 & J1)|]; [|auto].
    apply (Snd _ _ _ H1 p l1 r I1 J1).
  - intros ty [(i & a & b & dn & st & L) All].
    assert (Fnd : forall K e e', step_ok t (K t) e e' -> (forall ty i a b dn st, K t ty i a b dn st -> layer_at pr t ty i a b dn st) ->
       K t ty i a b dn st -> has_rec e' (fun r => r_type r = ty /\ r_outputs r = t)).
    { intros K e e' [(x & -> & Rx & Tx)|[-> Nx]] Sub k.
      - exists x. split; [apply add_adds|]. split; [apply (Tx _ _ _ _ _ _ k)|]. destruct Rx as (? & ? & _ & _ & -> & _). reflexivity.
      - exfalso. destruct (Nx _ _ _ _ _ _ k) as (i' & a' & b' & dn' & st' & k' & N). apply Sub in k'.
        destruct (All _ _ _ _ _ k') as (p & Q). exact (N p Q). }
    pose proof (kinds_cover t) as Kc.
    apply Kc in L as [L|[L|[L|[L|L]]]].
    + eapply step_has; [exact H5|]. eapply step_has; [exact H4|]. eapply step_has; [exact H3|]. eapply step_has; [exact H2|].
      eapply (Fnd k_affine); [exact H1| |exact L]. intros. apply Kc. auto.
    + eapply step_has; [exact H5|]. eapply step_has; [exact H4|]. eapply step_has; [exact H3|].
      eapply (Fnd k_scale); [exact H2| |exact L]. intros. apply Kc. auto.
    + eapply step_has; [exact H5|]. eapply step_has; [exact H4|].
      eapply (Fnd k_norm); [exact H3| |exact L]. intros. apply Kc. auto.
    + eapply step_has; [exact H5|].
      eapply (Fnd k_fused); [exact H4| |exact L]. intros. apply Kc. auto.
    + eapply (Fnd k_embed); [exact H5| |exact L]. intros. apply Kc. auto 6.
Qed.
End Find.

Lemma scanned_spec pr members x : outputs_agree (Match.Model.tg_graph (pr_graph pr)) ->
  In x (scanned_tensors pr members) <-> exists t, x = Tn t /\ proper_member pr members t.
Proof.
  intros [A B]. unfold scanned_tensors, filter_list, is_member, proper_member; cbn zeta. rewrite filter_In, in_members_In, in_map_iff. split.
  - intros [(t & <- & I) M]. exists t. split; [reflexivity|]. split; [exact M|].
    apply in_concat in I as (ts & I & J). apply in_map_iff in I as (o & <- & I). apply filter_In in I as [I0 I].
    destruct (B o t) as [B1 B2]; [apply in_seq in I0; lia|exact J|]. split; [exact B1|]. rewrite B2. apply negb_true_iff, I.
  - intros (t & -> & M & Lt & N). split; [|exact M]. exists t. split; [reflexivity|]. destruct (A t Lt) as [A1 A2].
    apply in_concat. eexists. split; [apply in_map_iff; eexists; split; [reflexivity|]|exact A2].
    apply filter_In. split; [apply in_seq; lia|]. rewrite N. reflexivity.
Qed.

Lemma found_exactly pr varlist members d :
  Match.Spec.wf_graph (pr_graph pr) -> outputs_agree (Match.Model.tg_graph (pr_graph pr)) -> separate pr varlist ->
  find_records pr varlist members = Ok d ->
  grouped d /\
  (forall r, candidate d r -> exists t, proper_member pr members t /\ record_for pr varlist t r) /\
  (forall t ty, proper_member pr members t -> trained_layer pr varlist t ty ->
     exists r, candidate d r /\ r_type r = ty /\ r_outputs r = t).
Proof.
  intros W Oa Sep H. split; [apply (find_records_ok _ _ _ _ H)|].
  unfold find_records in H. apply bind_ok in H as (ml & Hml & H). apply bind_ok in H as (m & Hm & H).
  assert (G : forall ts, (forall x, In x ts -> exists t, x = Tn t /\ proper_member pr members t) -> forall e e',
    foldM (fun d t => foldM (try_pattern m t) ml d) ts e = Ok e' ->
    (forall P, has_rec e P -> has_rec e' P) /\
    (forall p l r, In (p, l) e' -> In r l -> (exists l, In (p, l) e /\ In r l) \/ exists t, proper_member pr members t /\ record_for pr varlist t r) /\
    (forall t ty, In (Tn t) ts -> trained_layer pr varlist t ty -> has_rec e' (fun r => r_type r = ty /\ r_outputs r = t))).
  { induction ts as [|x ts IH]; intros Ts e e' F.
    - injection F as <-. split; [auto|]. split; [eauto|]. intros t ty [].
    - cbn [foldM] in F. apply bind_ok in F as (e1 & F1 & F).
      destruct (Ts x (or_introl eq_refl)) as (t0 & -> & M0).
      destruct (one_tensor pr varlist m Sep Hm ml t0 e e1 W Hml F1) as (A1 & A2 & A3).
      destruct (IH (fun y I => Ts y (or_intror I)) e1 e' F) as (B1 & B2 & B3).
      split; [auto|]. split.
      + intros p l r I J. destruct (B2 p l r I J) as [(l1 & I1 & J1)|]; [|auto].
        destruct (A2 p l1 r I1 J1) as [|R]; [auto|]. right. eauto.
      + intros t ty [E|I] L; [injection E as <-; auto|eauto]. }
  destruct (G (scanned_tensors pr members) (fun x I => proj1 (scanned_spec pr members x Oa) I) [] d H) as (_ & G2 & G3). split.
  - intros r (l & I & J). destruct (G2 _ _ _ I J) as [(? & [] & _)|R]. exact R.
  - intros t ty M L. destruct (G3 t ty) as (r & C & E1 & E2); [apply scanned_spec; eauto|exact L|]. exists r. auto.
Qed.

(** Layers without scale or normalisation are read in one way only. *)
Lemma reading_unique pr t ty i a b dn st i' a' b' dn' st' :
  Match.Spec.wf_graph (pr_graph pr) -> ty = RT_fully_connected \/ ty = RT_conv2d ->
  layer_at pr t ty i a b dn st -> layer_at pr t ty i' a' b' dn' st' ->
  i = i' /\ a = a' /\ b = b' /\ dn = dn' /\ st = st'.
Proof.
  intros W T L L'.
  destruct (Match.LayerProofs.affine_recognised _ W) as (f & _ & R). destruct (Match.LayerProofs.embed_recognised _ W) as (f2 & _ & R2).
  assert (Dd : forall l l', Match.Spec.dense_layer (pr_graph pr) t l -> Match.Spec.dense_layer (pr_graph pr) t l' -> l = l').
  { intros l l' D D'. destruct (R (Tn t)) as [(t' & l0 & b0 & c0 & [= <-] & _ & U & _)|(N & _)]; [|exfalso; eapply N; eauto].
    rewrite (U l D), (U l' D'). reflexivity. }
  assert (De : forall l x l' x', Match.Spec.embedding (pr_graph pr) t l x -> Match.Spec.embedding (pr_graph pr) t l' x' -> l = l').
  { intros l x l' x' D D'. destruct (R2 (Tn t)) as [(t' & l0 & x0 & b0 & c0 & [= <-] & _ & U & _)|(N & _)]; [|exfalso; eapply N; eauto].
    rewrite (proj1 (U l x D)), (proj1 (U l' x' D')). reflexivity. }
  assert (X : forall l l' x, Match.Spec.dense_layer (pr_graph pr) t l -> Match.Spec.embedding (pr_graph pr) t l' x -> False).
  { intros l l' x D E.
    assert (Ce : exists o, Match.Spec.computed_by (pr_graph pr) t o /\ Match.Spec.has_type (pr_graph pr) o ["Gather"; "ResourceGather"; "GatherV2"]).
    { inversion E; subst; unfold Match.Spec.has_type in *; cbn in *; eexists; split; eauto; tauto. }
    assert (Cd : exists o, Match.Spec.computed_by (pr_graph pr) t o /\ Match.Spec.has_type (pr_graph pr) o ["Conv2D"; "MatMul"; "BatchMatMulV2"; "Add"; "BiasAdd"; "AddV2"]).
    { inversion D; subst; try match goal with H : Match.Spec.linear _ ?o _ _ , H' : Match.Spec.computed_by _ _ ?o |- _ => pose proof (proj1 H) end;
        unfold Match.Spec.has_type in *; cbn in *; eexists; split; eauto; tauto. }
    destruct Ce as (o1 & C1 & T1), Cd as (o2 & C2 & T2).
    assert (o1 = o2) by (eapply (Match.LayerProofs.computed_det (pr_graph pr)); eauto). subst o2.
    unfold Match.Spec.has_type in T1, T2. cbn in T1, T2.
    destruct T1 as [T1|[T1|[T1|[]]]]; rewrite <- T1 in T2; intuition discriminate. }
  inversion L; subst; inversion L'; subst; try (destruct T; discriminate);
    try (exfalso; eapply X; eassumption);
    try (assert (l = l0) by eauto; subst; auto 10); intuition discriminate.
Qed.

(** Layers that make the scan fail. *)
Lemma table_of pr varlist members d : find_records pr varlist members = Ok d ->
  exists m, tensors_to_variables pr varlist = Ok m.
Proof. intros H. apply bind_ok in H as (ml & _ & H). apply bind_ok in H as (m & Hm & _). eauto. Qed.
Lemma trained_when pr varlist members d t i a b dn st v :
  Match.Spec.wf_graph (pr_graph pr) -> separate pr varlist -> find_records pr varlist members = Ok d ->
  layer_at pr t RT_fully_connected i (Some a) b dn st -> stands pr varlist a v ->
  trained_layer pr varlist t RT_fully_connected.
Proof.
  intros W Sep H L S. destruct (table_of _ _ _ _ H) as (m & Hm). split; [eauto 6|].
  intros i' a' b' dn' st' L'. destruct (reading_unique pr _ _ _ _ _ _ _ _ _ _ _ _ W (or_introl eq_refl) L L') as (_ & <- & <- & _).
  exists (match match b with Some t => var_of m t | None => None end with Some w => PTup [v; w] | None => PVar v end).
  apply (layer_params_iff pr varlist m Sep Hm). apply (var_of_stands pr varlist m Sep Hm) in S. rewrite S.
  destruct (match b with Some t => var_of m t | None => None end); reflexivity.
Qed.
Lemma unsupported_raises pr varlist members t i a b dn st v :
  Match.Spec.wf_graph (pr_graph pr) -> outputs_agree (Match.Model.tg_graph (pr_graph pr)) -> separate pr varlist ->
  proper_member pr members t -> layer_at pr t RT_fully_connected i (Some a) b dn st -> stands pr varlist a v ->
  ((if dn then 4 else 3) <= rank pr i \/
   exists l, dn = true /\ Match.Spec.dense_layer (pr_graph pr) t l /\ pr_transposed pr (Match.Spec.l_op l) = true) ->
  exists e, find_records pr varlist members = Raise e.
Proof.
  intros W Oa Sep M L S U. destruct (find_records pr varlist members) as [d|e] eqn:H; [exfalso|eauto].
  destruct (found_exactly pr varlist members d W Oa Sep H) as (_ & A & B).
  destruct (B t RT_fully_connected M (trained_when _ _ _ _ _ _ _ _ _ _ _ W Sep H L S)) as (r & C & T & O).
  destruct (A r C) as (t' & _ & a' & b' & La & _ & O' & _ & Su).
  rewrite O in O'. rewrite <- O' in La, Su. rewrite T in La.
  destruct (reading_unique pr _ _ _ _ _ _ _ _ _ _ _ _ W (or_introl eq_refl) L La) as (E1 & _ & _ & E2 & _).
  destruct (Su T) as [Rk Tr]. rewrite <- E1, <- E2 in Rk. destruct U as [U|(l & E & D & U)].
  - destruct dn; lia.
  - rewrite (Tr l) in U; [discriminate|congruence|exact D].
Qed.
