(** Proofs about histories of registration calls (C19-C22, C24, C28). *)
From Coq Require Import String List Arith ZArith Bool Reals Lia.
From Verif.Base Require Import Py.
From Verif.Registry Require Import Model Spec BlockProofs.
Import ListNotations.
Open Scope list_scope.

(* ------------------------------------------------------------------------ *)
(** * Invariants under arbitrary calls *)

Definition preserves (P : coll -> Prop) {A} (m : M A) : Prop :=
  forall c, P c -> P (fst (m c)).
Lemma preserves_still P {A} (m : M A) : still m -> preserves P m.
Proof. intros H c Hc. rewrite H. assumption. Qed.
Lemma preserves_bind (P : coll -> Prop) {A B} (m : M A) (k : A -> M B) :
  preserves P m -> (forall a, preserves P (k a)) -> preserves P (mbind m k).
Proof.
  intros Hm Hk c Hc. rewrite mbind_eq. specialize (Hm c Hc).
  destruct (m c) as [c' [a|e]]; cbn in *; [apply Hk; assumption | assumption].
Qed.

Ltac stl := first [apply still_ret | apply still_raise | apply still_lift | apply still_assert
                  | apply still_get_block_type | apply still_conv_kfc | apply still_conv_diag
                  | apply still_depthwise].

(** If the three state-changing steps preserve [P], so does every layer call. *)
Lemma layer_preserves (P : coll -> Prop) shape scope l :
  (forall p b r, preserves P (register_block scope p b r)) ->
  (forall p t, preserves P (add_tower p t)) ->
  (forall p n, preserves P (add_uses p n)) ->
  preserves P (run_layer shape scope l).
Proof.
  intros Hr Ht Hu.
  assert (T : forall p k tw n, preserves P (let! _ := add_tower k tw in add_uses p n)).
  { intros. apply preserves_bind; auto. }
  assert (F : forall p k i o, preserves P (finish_multi p k i o)).
  { intros. unfold finish_multi. apply preserves_bind; auto. intros _.
    destruct i; [auto|]. destruct o; [apply preserves_still; stl|].
    apply preserves_bind; [apply preserves_still; stl|auto]. }
  assert (C2 : forall p s d i o f a r, preserves P (register_conv2d shape scope p s d i o f a r)).
  { intros. unfold register_conv2d.
    apply preserves_bind; [apply preserves_still; stl|]. intros _.
    apply preserves_bind; [apply preserves_still; stl|]. intros [k a'].
    apply preserves_bind; [|auto].
    split_if; [apply preserves_bind; [apply preserves_still; stl|auto]|].
    split_if.
    { apply preserves_bind; [apply preserves_still; stl|]. intros ok.
      apply preserves_bind; [apply preserves_still; stl|]. intros _.
      apply preserves_bind; [apply preserves_still; stl|auto]. }
    split_if; [apply preserves_bind; [apply preserves_still; stl|auto]|].
    apply preserves_still; stl. }
  assert (C1 : forall p i o a r, preserves P (register_conv1d scope p i o a r)).
  { intros. unfold register_conv1d.
    apply preserves_bind; [apply preserves_still; stl|]. intros _.
    apply preserves_bind; [apply preserves_still; stl|]. intros _.
    apply preserves_bind; auto. }
  assert (D : forall p s t i o f a r, preserves P (register_depthwise_conv2d shape scope p s t i o f a r)).
  { intros. unfold register_depthwise_conv2d.
    do 3 (apply preserves_bind; [apply preserves_still; stl|]; intros _).
    apply preserves_bind; auto. }
  destruct l; cbn [run_layer]; auto.
  - unfold register_fully_connected.
    apply preserves_bind; [apply preserves_still; stl|]. intros [k a'].
    apply preserves_bind; auto. intros key.
    apply preserves_bind; [apply preserves_still; destruct dense; stl|]. auto.
  - unfold register_separable_conv2d. apply preserves_bind; auto.
  - unfold register_generic.
    apply preserves_bind; [apply preserves_still; stl|]. intros [k a'].
    split_if; [apply preserves_still; stl|]. apply preserves_bind; auto.
  - unfold register_fully_connected_multi.
    apply preserves_bind; [apply preserves_still; stl|]. intros [k a'].
    apply preserves_bind; auto. intros key.
    apply preserves_bind; [|auto]. apply preserves_still.
    destruct dense; [stl|]. destruct i as [|[|]]; stl.
  - unfold register_conv2d_multi.
    apply preserves_bind; [apply preserves_still; stl|]. intros _.
    apply preserves_bind; [apply preserves_still; stl|]. intros [k a'].
    apply preserves_bind; [apply preserves_still; stl|]. intros _.
    apply preserves_bind; auto.
  - unfold register_scale_and_shift.
    apply preserves_bind.
    { apply preserves_still. destruct p as [|[|? [|]]]; try stl.
      apply still_bind; [stl | intros; stl]. }
    intros sc. apply preserves_bind; [apply preserves_still; stl|]. intros _.
    apply preserves_bind; [apply preserves_still; stl|]. intros [k a'].
    apply preserves_bind; auto.
Qed.

Lemma after_app shape h1 h2 c : after shape (h1 ++ h2) c = after shape h2 (after shape h1 c).
Proof. apply fold_left_app. Qed.
Lemma after_cons shape k h c : after shape (k :: h) c = after shape h (fst (run_call shape k c)).
Proof. reflexivity. Qed.
Lemma after_inv (P : coll -> Prop) shape h c :
  P c -> (forall k c, P c -> P (fst (run_call shape k c))) -> P (after shape h c).
Proof.
  intros Hc H. revert c Hc. induction h as [|k h IH]; intros c Hc; [assumption|].
  rewrite after_cons. auto.
Qed.

(** What the non-layer calls do to the blocks. *)
Lemma other_blocks shape k c :
  (forall s l, k <> Layer s l) -> c_blocks (fst (run_call shape k c)) = c_blocks c.
Proof.
  intros N. destruct k; cbn [run_call].
  - exfalso. eapply N. reflexivity.
  - unfold register_loss. destruct (c_final c); [reflexivity|].
    destruct (resolve scope r); destruct (find_loss _ _) as [[|t ts]|]; try reflexivity;
      destruct (coeff_of _ _); try reflexivity; destruct (Req_EM_T _ _); reflexivity.
  - unfold define_linked_parameters. destruct existsb; [reflexivity|]. destruct existsb; reflexivity.
  - unfold set_default. destruct lookup; reflexivity.
  - unfold finalize. destruct c_final; [reflexivity|]. destruct losses; reflexivity.
  - unfold check_registration. destruct (_ && _); [reflexivity|]. destruct check_loop; reflexivity.
Qed.

(* ------------------------------------------------------------------------ *)
(** * C19: one block per variable *)

Definition disjoint_keys (ks : list params) : Prop :=
  NoDup ks /\
  forall i j p q v, nth_error ks i = Some p -> nth_error ks j = Some q ->
    In v (vars_of p) -> In v (vars_of q) -> i = j.
Definition DK (c : coll) : Prop := disjoint_keys (map fst (c_blocks c)).

Lemma registered_spec bs v : In v (registered bs) <-> exists p b, In (p, b) bs /\ In v (vars_of p).
Proof.
  unfold registered. rewrite in_concat. split.
  - intros (l & I & V). apply in_map_iff in I as ([p b] & <- & I). eauto.
  - intros (p & b & I & V). exists (vars_of p). split; [|assumption].
    apply in_map_iff. exists (p, b). auto.
Qed.
Lemma overlap_false p c :
  overlap p c = false -> forall v, In v (vars_of p) -> ~ In v (registered (c_blocks c)).
Proof.
  intros O v V I. apply not_true_iff_false in O. apply O. apply existsb_exists.
  exists v. split; [assumption|]. apply mem_spec. assumption.
Qed.
Lemma find_None_keys bs p : find_block bs p = None -> ~ In p (map fst bs).
Proof.
  intros F I. apply in_map_iff in I as ([q b] & E & I). cbn in E. subst.
  eapply find_block_None; eauto.
Qed.

Lemma DK_add c p b :
  DK c -> find_block (c_blocks c) p = None -> overlap p c = false ->
  disjoint_keys (map fst (c_blocks c ++ [(p, b)])).
Proof.
  intros [N D] F O. rewrite map_app. cbn. split.
  -
    rewrite <- (rev_involutive (map fst (c_blocks c) ++ [p])). apply NoDup_rev.
    rewrite rev_app_distr. cbn. constructor.
    + rewrite <- in_rev. apply find_None_keys. assumption.
    + apply NoDup_rev. assumption.
  - intros i j q1 q2 v Hi Hj V1 V2.
    assert (L : forall i q, nth_error (map fst (c_blocks c) ++ [p]) i = Some q ->
                (nth_error (map fst (c_blocks c)) i = Some q) \/
                (i = length (map fst (c_blocks c)) /\ q = p)).
    { intros i0 q H. destruct (Nat.lt_ge_cases i0 (length (map fst (c_blocks c)))) as [Lt|Ge].
      - rewrite nth_error_app1 in H by assumption. auto.
      - rewrite nth_error_app2 in H by assumption.
        destruct (i0 - length (map fst (c_blocks c))) as [|n] eqn:E; cbn in H.
        + right. split; [lia|congruence].
        + destruct n; discriminate. }
    assert (X : forall i q, nth_error (map fst (c_blocks c)) i = Some q ->
                In v (vars_of q) -> In v (vars_of p) -> False).
    { intros i0 q H Vq Vp. apply (overlap_false p c O v Vp). apply registered_spec.
      apply nth_error_In in H. apply in_map_iff in H as ([q' b'] & E & I). cbn in E. subst. eauto. }
    apply L in Hi as [Hi|[-> ->]]; apply L in Hj as [Hj|[-> ->]].
    + eapply D; eauto.
    + exfalso. eauto.
    + exfalso. eauto.
    + reflexivity.
Qed.

Lemma DK_layer shape scope l : preserves DK (run_layer shape scope l).
Proof.
  apply layer_preserves.
  - intros p b r c Hc.
    destruct (register_block_atomic scope p b r c) as [(e & E)|(k & c' & E & _ & _ & R)];
      rewrite E; cbn; [assumption|].
    inversion R; subst; [|assumption]. unfold DK. cbn. apply DK_add; assumption.
  - intros p t c Hc. unfold DK, add_tower. cbn. rewrite append_tower_keys. assumption.
  - intros p n c Hc. exact Hc.
Qed.
Lemma DK_call shape k c : DK c -> DK (fst (run_call shape k c)).
Proof.
  intros H. destruct k; try (unfold DK; rewrite other_blocks by congruence; exact H).
  apply DK_layer. assumption.
Qed.
Lemma DK_after shape h : DK (after shape h initial).
Proof.
  apply after_inv; [|intros; apply DK_call; assumption].
  split; [constructor|]. intros i j p q v Hi. destruct i; discriminate.
Qed.

Lemma one_block shape h i j p q b d v :
  nth_error (c_blocks (after shape h initial)) i = Some (p, b) ->
  nth_error (c_blocks (after shape h initial)) j = Some (q, d) ->
  In v (vars_of p) -> In v (vars_of q) -> i = j.
Proof.
  intros Hi Hj Vp Vq. destruct (DK_after shape h) as [_ D].
  apply (D i j p q v); auto.
  - rewrite nth_error_map, Hi. reflexivity.
  - rewrite nth_error_map, Hj. reflexivity.
Qed.

Lemma DK_unique c p q b d v :
  DK c -> In (p, b) (c_blocks c) -> In (q, d) (c_blocks c) ->
  In v (vars_of p) -> In v (vars_of q) -> p = q.
Proof.
  intros [_ D] I J Vp Vq.
  apply In_nth_error in I as (i & I). apply In_nth_error in J as (j & J).
  assert (E : i = j).
  { apply (D i j p q v); auto; rewrite nth_error_map; [rewrite I|rewrite J]; reflexivity. }
  subst j. rewrite I in J. congruence.
Qed.

(** The register_block step inside every single-layer call. *)
Definition refuses {A} (m : M A) (c : coll) : Prop := exists e, m c = (c, Raise e).
Lemma refuses_bind {A B} (m : M A) (k : A -> M B) c : refuses m c -> refuses (mbind m k) c.
Proof. intros (e & E). exists e. rewrite mbind_eq, E. reflexivity. Qed.
Lemma refuses_bind_still {A B} (m : M A) (k : A -> M B) c :
  still m -> (forall a, m c = (c, Ok a) -> refuses (k a) c) -> refuses (mbind m k) c.
Proof.
  intros Hm Hk. unfold refuses. rewrite mbind_eq. specialize (Hm c).
  destruct (m c) as [c' [a|e]]; cbn in Hm; subst; [apply Hk; reflexivity | eauto].
Qed.

(** If _register_block refuses [p] for every block of the requested class, the whole
    call is refused and changes nothing. *)
Lemma layer_refuses shape scope l c t rest :
  parts l = t :: rest ->
  (forall k a, (rest = [] -> requested c l = Some (k, a)) ->
     refuses (register_block scope (pt_params t) (mkBlock k a []) (reuse_of l)) c) ->
  refuses (run_layer shape scope l) c.
Proof.
  intros P H.
  assert (G : forall B k p approx d (f : cls * string -> M B),
    (forall c, d c = default_of k (c_def c)) ->
    (forall x, lookup (table_of k) (effective c k p approx) = Some x ->
       refuses (f (x, effective c k p approx)) c) ->
    refuses (mbind (get_block_type p approx d (table_of k)) f) c).
  { intros B k p approx d f Hd Hf. unfold refuses. rewrite mbind_eq, (get_block_type_eq k p approx d c Hd).
    destruct (lookup _ _) eqn:L; [apply Hf; reflexivity | eauto]. }
  destruct l; cbn [run_layer]; injection P as <- <-; cbn [pt_params reuse_of] in H.
  - unfold register_fully_connected. apply (G _ KFc); [reflexivity|]. intros x L.
    apply refuses_bind, H. intros _. unfold requested; cbn [kind_of]; rewrite L; reflexivity.
  - unfold register_conv1d. apply refuses_bind_still; [stl|]. intros _ _.
    apply refuses_bind_still; [stl|]. intros _ _.
    apply refuses_bind, H. reflexivity.
  - unfold register_conv2d. apply refuses_bind_still; [stl|]. intros _ _.
    apply (G _ KConv2d); [reflexivity|]. intros x L. apply refuses_bind.
    assert (Q : refuses (register_block scope p (mkBlock x (effective c KConv2d p approx) []) r) c).
    { apply H. intros _. unfold requested; cbn [kind_of]; rewrite L; reflexivity. }
    split_if; [apply refuses_bind_still; [stl|]; auto|].
    split_if.
    { apply refuses_bind_still; [stl|]. intros ok _. apply refuses_bind_still; [stl|]. intros _ _.
      apply refuses_bind_still; [stl|]. auto. }
    split_if; [apply refuses_bind_still; [stl|]; auto|].
    eexists. reflexivity.
  - unfold register_convolution, register_conv1d. apply refuses_bind_still; [stl|]. intros _ _.
    apply refuses_bind_still; [stl|]. intros _ _.
    apply refuses_bind, H. reflexivity.
  - unfold register_depthwise_conv2d. do 3 (apply refuses_bind_still; [stl|]; intros _ _).
    apply refuses_bind, H. reflexivity.
  - unfold register_separable_conv2d. apply refuses_bind.
    unfold register_depthwise_conv2d. do 3 (apply refuses_bind_still; [stl|]; intros _ _).
    apply refuses_bind, H. discriminate.
  - unfold register_generic. apply (G _ KGeneric); [reflexivity|]. intros x L.
    split_if; [eexists; reflexivity|].
    apply refuses_bind, H. intros _. unfold requested; cbn [kind_of]; rewrite L; reflexivity.
  - unfold register_fully_connected_multi. apply (G _ KFcMulti); [reflexivity|]. intros x L.
    apply refuses_bind, H. intros _. unfold requested; cbn [kind_of]; rewrite L; reflexivity.
  - unfold register_conv2d_multi. apply refuses_bind_still; [stl|]. intros _ _.
    apply (G _ KConv2dMulti); [reflexivity|]. intros x L.
    apply refuses_bind_still; [stl|]. intros _ _.
    apply refuses_bind, H. intros _. unfold requested; cbn [kind_of]; rewrite L; reflexivity.
  - unfold register_scale_and_shift. apply refuses_bind_still.
    { destruct p as [|[|? [|]]]; try stl. apply still_bind; [stl | intros; stl]. }
    intros sc _. apply refuses_bind_still; [stl|]. intros _ _.
    apply (G _ KScaleShift); [reflexivity|]. intros x L.
    apply refuses_bind, H. intros _. unfold requested; cbn [kind_of]; rewrite L; reflexivity.
Qed.

Lemma register_block_refuses scope p b r c :
  (c_final c = true \/
   (exists b0, find_block (c_blocks c) p = Some b0 /\
      (b_cls b0 <> b_cls b \/ (resolve scope r <> RTrue /\ resolve scope r <> RAuto))) \/
   (find_block (c_blocks c) p = None /\ (resolve scope r = RTrue \/ overlap p c = true))) ->
  refuses (register_block scope p b r) c.
Proof.
  intros H.
  destruct (register_block_atomic scope p b r c) as [R|(k & c' & _ & _ & Fi & R)]; [exact R|].
  exfalso. destruct H as [H|[(b0 & F & H)|(F & H)]]; [congruence|..]; inversion R; subst; try congruence.
  - destruct H as [H|(Ha & Hb)]; [congruence|]. match goal with X : _ \/ _ |- _ => destruct X end; congruence.
  - destruct H; congruence.
Qed.

Lemma conflict_refused shape h scope l t rest q b v :
  let c := after shape h initial in
  parts l = t :: rest -> In (q, b) (c_blocks c) -> q <> pt_params t ->
  In v (vars_of (pt_params t)) -> In v (vars_of q) ->
  exists e, run_layer shape scope l c = (c, Raise e).
Proof.
  intros c P I N V1 V2. apply (layer_refuses shape scope l c t rest P). intros k a _.
  apply register_block_refuses. right. right.
  assert (F : find_block (c_blocks c) (pt_params t) = None).
  { destruct (find_block (c_blocks c) (pt_params t)) as [b0|] eqn:F; [|reflexivity].
    exfalso. apply N. apply find_block_In in F.
    symmetry. eapply DK_unique; eauto. apply DK_after. }
  split; [exact F|]. right. apply existsb_exists. exists v. split; [assumption|].
  apply mem_spec, registered_spec. eauto.
Qed.

Lemma find_block_key c p b : DK c -> In (p, b) (c_blocks c) -> find_block (c_blocks c) p = Some b.
Proof.
  intros [N _] I. revert N I. generalize (c_blocks c). intros bs.
  induction bs as [|[k b'] bs IH]; cbn; intros N I; [destruct I|].
  inversion N as [|? ? H1 H2]; subst. destruct I as [[= -> ->]|I].
  - rewrite params_eqb_refl. reflexivity.
  - destruct (params_eqb k p) eqn:E; [|auto].
    apply params_eqb_spec in E. subst. exfalso. apply H1. apply in_map_iff. exists (p, b). auto.
Qed.

Lemma duplicate_refused shape h scope l t rest b :
  let c := after shape h initial in
  parts l = t :: rest -> In (pt_params t, b) (c_blocks c) ->
  resolve scope (reuse_of l) = RFalse ->
  exists e, run_layer shape scope l c = (c, Raise e).
Proof.
  intros c P I R. apply (layer_refuses shape scope l c t rest P). intros k a _.
  apply register_block_refuses. right. left. exists b. split.
  - apply find_block_key; [apply DK_after | assumption].
  - right. rewrite R. split; discriminate.
Qed.

Lemma reuse_unknown_refused shape scope l t rest c :
  parts l = t :: rest -> (forall b, ~ In (pt_params t, b) (c_blocks c)) ->
  resolve scope (reuse_of l) = RTrue ->
  exists e, run_layer shape scope l c = (c, Raise e).
Proof.
  intros P N R. apply (layer_refuses shape scope l c t rest P). intros k a _.
  apply register_block_refuses. right. right. split; [|auto].
  destruct (find_block _ _) eqn:F; [|reflexivity]. apply find_block_In in F. exfalso. eapply N; eauto.
Qed.

Lemma wrong_type_refused shape h scope l t b k a :
  let c := after shape h initial in
  parts l = [t] -> In (pt_params t, b) (c_blocks c) ->
  requested c l = Some (k, a) -> b_cls b <> k ->
  exists e, run_layer shape scope l c = (c, Raise e).
Proof.
  intros c P I Rq N. apply (layer_refuses shape scope l c t [] P). intros k' a' Rq'.
  specialize (Rq' eq_refl). rewrite Rq in Rq'. injection Rq' as <- <-.
  apply register_block_refuses. right. left. exists b. split; [|auto].
  apply find_block_key; [apply DK_after | assumption].
Qed.

(* ------------------------------------------------------------------------ *)
(** * C21: finalisation *)

Lemma finalized_layer shape scope l c :
  c_final c = true -> exists e, run_layer shape scope l c = (c, Raise e).
Proof.
  intros F. destruct (parts l) as [|t rest] eqn:P; [destruct l; discriminate|].
  apply (layer_refuses shape scope l c t rest P). intros k a _.
  apply register_block_refuses. auto.
Qed.
Lemma finalized_loss scope name fresh k r c :
  c_final c = true -> register_loss scope name fresh k r c = (c, Raise ValueError).
Proof. intros F. unfold register_loss. rewrite F. reflexivity. Qed.

Definition same_model (c c' : coll) : Prop :=
  c_blocks c' = c_blocks c /\ c_losses c' = c_losses c /\ c_coeffs c' = c_coeffs c /\
  c_final c' = true.
Lemma finalized_call shape k c : c_final c = true -> same_model c (fst (run_call shape k c)).
Proof.
  intros F. destruct k; cbn [run_call].
  - destruct (finalized_layer shape scope l c F) as (e & ->). repeat split; auto.
  - rewrite finalized_loss by assumption. repeat split; auto.
  - unfold define_linked_parameters. destruct existsb; [repeat split; auto|].
    destruct existsb; repeat split; auto.
  - unfold set_default. destruct lookup; repeat split; auto.
  - unfold finalize. rewrite F. repeat split; auto.
  - unfold check_registration. destruct (_ && _); [repeat split; auto|].
    destruct check_loop. repeat split; auto.
Qed.
Lemma finalized_after shape h c : c_final c = true -> same_model c (after shape h c).
Proof.
  revert c. induction h as [|k h IH]; intros c F; [repeat split; auto|].
  rewrite after_cons. destruct (finalized_call shape k c F) as (B & L & K & F').
  destruct (IH _ F') as (B' & L' & K' & F''). repeat split; congruence.
Qed.
Lemma finalize_iff c :
  (snd (finalize c) = Ok tt <-> c_final c = false /\ losses c <> []) /\
  (c_final c = true \/ losses c = [] -> finalize c = (c, Raise ValueError)) /\
  (snd (finalize c) = Ok tt -> c_final (fst (finalize c)) = true).
Proof.
  unfold finalize. destruct (c_final c) eqn:F; [|destruct (losses c) eqn:L]; cbn;
    (split; [split|split]); try congruence; try (intros [? ?]; congruence);
    try (intros [?|?]; congruence); auto.
  intros _. split; congruence.
Qed.
