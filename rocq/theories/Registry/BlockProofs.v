(** Proofs about layer registration (C19, C20, C21, C28). *)
From Coq Require Import String List Arith ZArith Bool Reals Lia.
From Verif.Base Require Import Py.
From Verif.Registry Require Import Model Spec.
Import ListNotations.
Open Scope list_scope.

(* ------------------------------------------------------------------------ *)
(** * Equality tests *)

Lemma nats_eqb_spec a b : nats_eqb a b = true <-> a = b.
Proof.
  revert b. induction a as [|x a IH]; intros [|y b]; cbn; try (split; congruence).
  rewrite andb_true_iff, Nat.eqb_eq, IH. split.
  - intros [-> ->]; reflexivity.
  - intros [= -> ->]; auto.
Qed.
Lemma params_eqb_spec p q : params_eqb p q = true <-> p = q.
Proof.
  destruct p, q; cbn; try (split; congruence).
  - rewrite Nat.eqb_eq. split; congruence.
  - rewrite nats_eqb_spec. split; congruence.
Qed.
Lemma params_eqb_refl p : params_eqb p p = true.
Proof. apply params_eqb_spec; reflexivity. Qed.
Lemma params_eqb_neq p q : params_eqb p q = false <-> p <> q.
Proof.
  rewrite <- not_true_iff_false, params_eqb_spec. reflexivity.
Qed.
Lemma cls_eqb_spec a b : cls_eqb a b = true <-> a = b.
Proof. destruct a, b; cbn; split; congruence. Qed.
Lemma mem_spec v l : mem v l = true <-> In v l.
Proof.
  unfold mem. rewrite existsb_exists. split.
  - intros (x & I & E). apply Nat.eqb_eq in E. subst; assumption.
  - intros I. exists v. rewrite Nat.eqb_refl. auto.
Qed.

(* ------------------------------------------------------------------------ *)
(** * Monad reasoning *)

Lemma mbind_eq {A B} (m : M A) (k : A -> M B) c :
  mbind m k c = match m c with (c', Ok a) => k a c' | (c', Raise e) => (c', Raise e) end.
Proof. reflexivity. Qed.

Ltac split_if := match goal with |- context[if ?b then _ else _] => destruct b end.

(** A computation that never changes the state. *)
Definition still {A} (m : M A) : Prop := forall c, fst (m c) = c.
Lemma still_ret {A} (a : A) : still (ret a).
Proof. intros c; reflexivity. Qed.
Lemma still_raise {A} e : still (@raise A e).
Proof. intros c; reflexivity. Qed.
Lemma still_lift {A} (r : res A) : still (lift r).
Proof. intros c; reflexivity. Qed.
Lemma still_assert b : still (assert_ b).
Proof. destruct b; [apply still_ret | apply still_raise]. Qed.
Lemma still_bind {A B} (m : M A) (k : A -> M B) :
  still m -> (forall a, still (k a)) -> still (mbind m k).
Proof.
  intros Hm Hk c. rewrite mbind_eq. specialize (Hm c). destruct (m c) as [c' [a|e]]; cbn in *.
  - subst. apply Hk.
  - assumption.
Qed.
Lemma still_get_block_type p a d t : still (get_block_type p a d t).
Proof. intros c. unfold get_block_type. destruct lookup; reflexivity. Qed.
Lemma still_conv_kfc p : still (conv_kfc_ctor p).
Proof. apply still_bind; [apply still_lift | intros; apply still_ret]. Qed.
Lemma still_conv_diag shape p s d f : still (conv_diag_ctor shape p s d f).
Proof.
  unfold conv_diag_ctor. do 3 (split_if; [apply still_raise|]).
  apply still_bind; [apply still_lift | intros v]. split_if; [apply still_raise | apply still_ret].
Qed.
Lemma still_depthwise shape p s d f : still (depthwise_ctor shape p s d f).
Proof.
  unfold depthwise_ctor. destruct p; [|apply still_raise].
  do 2 (split_if; [apply still_raise|]).
  destruct d as [rt|]; [split_if|]; try apply still_raise; apply still_conv_diag.
Qed.

(** [m] either raises leaving the state alone or succeeds satisfying [Q]. *)
Definition atomic {A} (m : M A) (c : coll) (Q : A -> coll -> Prop) : Prop :=
  (exists e, m c = (c, Raise e)) \/ (exists a c', m c = (c', Ok a) /\ Q a c').
Lemma atomic_bind_still {A B} (m : M A) (k : A -> M B) c Q :
  still m -> (forall a, m c = (c, Ok a) -> atomic (k a) c Q) -> atomic (mbind m k) c Q.
Proof.
  intros Hm Hk. specialize (Hm c). unfold atomic. rewrite mbind_eq.
  destruct (m c) as [c' [a|e]] eqn:E; cbn in Hm; subst c'.
  - apply Hk. reflexivity.
  - left. eauto.
Qed.
Lemma atomic_raise {A} e c (Q : A -> coll -> Prop) : atomic (raise e) c Q.
Proof. left. exists e. reflexivity. Qed.
Lemma atomic_weaken {A} (m : M A) c (Q Q' : A -> coll -> Prop) :
  atomic m c Q -> (forall a c', Q a c' -> Q' a c') -> atomic m c Q'.
Proof. intros [?|(a & c' & E & H)] W; [left; assumption | right; eauto 6]. Qed.

(* ------------------------------------------------------------------------ *)
(** * _register_block *)

Definition overlap (p : params) (c : coll) : bool :=
  existsb (fun v => mem v (registered (c_blocks c))) (vars_of p).

Inductive registers (scope r : reuse) (p : params) (b : block) (c : coll) : coll -> Prop :=
| reg_new : find_block (c_blocks c) p = None -> resolve scope r <> RTrue ->
    overlap p c = false ->
    registers scope r p b c (set_blocks (c_blocks c ++ [(p, b)]) c)
| reg_old b0 : find_block (c_blocks c) p = Some b0 -> b_cls b0 = b_cls b ->
    (resolve scope r = RTrue \/ resolve scope r = RAuto) ->
    registers scope r p b c c.

Lemma register_block_atomic scope p b r c :
  atomic (register_block scope p b r) c
    (fun k c' => k = p /\ c_final c = false /\ registers scope r p b c c').
Proof.
  unfold atomic, register_block. destruct (c_final c) eqn:Fi; [left; eauto|].
  destruct (find_block (c_blocks c) p) as [b0|] eqn:F.
  - destruct (resolve scope r) eqn:X; try (left; eexists; reflexivity);
      (destruct (cls_eqb (b_cls b0) (b_cls b)) eqn:C; [|left; eexists; reflexivity]);
      right; exists p, c; (split; [reflexivity|]); repeat split; apply cls_eqb_spec in C;
      econstructor 2; eauto.
  - change (existsb _ (vars_of p)) with (overlap p c).
    destruct (overlap p c) eqn:O.
    + destruct (resolve scope r); left; eexists; reflexivity.
    + assert (D : (let! _ := dict_insert p b in ret p) c
                  = (set_blocks (c_blocks c ++ [(p, b)]) c, Ok p)).
      { rewrite mbind_eq. unfold dict_insert.
        change (existsb _ (vars_of p)) with (overlap p c). rewrite O. reflexivity. }
      destruct (resolve scope r) eqn:X; try (left; eexists; reflexivity);
        right; exists p; eexists; (split; [exact D|]); repeat split; constructor; auto; congruence.
Qed.

Lemma find_block_In bs p b : find_block bs p = Some b -> In (p, b) bs.
Proof.
  induction bs as [|[k b'] bs IH]; cbn; [discriminate|].
  destruct (params_eqb k p) eqn:E.
  - intros [= ->]. apply params_eqb_spec in E. subst. auto.
  - auto.
Qed.
Lemma find_block_None bs p : find_block bs p = None -> forall b, ~ In (p, b) bs.
Proof.
  induction bs as [|[k b'] bs IH]; cbn; intros F b I; [assumption|].
  destruct (params_eqb k p) eqn:E; [discriminate|].
  destruct I as [[= -> ->]|I].
  - rewrite params_eqb_refl in E. discriminate.
  - eapply IH; eauto.
Qed.
Lemma append_tower_new bs p b t :
  find_block bs p = None ->
  append_tower (bs ++ [(p, b)]) p t
  = bs ++ [(p, mkBlock (b_cls b) (b_approx b) (b_towers b ++ [t]))].
Proof.
  induction bs as [|[k b'] bs IH]; cbn; intros F.
  - rewrite params_eqb_refl. reflexivity.
  - destruct (params_eqb k p); [discriminate|]. rewrite IH by assumption. reflexivity.
Qed.
Lemma append_tower_keys bs p t : map fst (append_tower bs p t) = map fst bs.
Proof.
  induction bs as [|[k b] bs IH]; cbn; [reflexivity|].
  destruct (params_eqb k p); cbn; congruence.
Qed.
Lemma find_append_tower bs p t q :
  find_block (append_tower bs p t) q
  = if params_eqb p q
    then option_map (fun b => mkBlock (b_cls b) (b_approx b) (b_towers b ++ [t])) (find_block bs q)
    else find_block bs q.
Proof.
  induction bs as [|[k b] bs IH]; cbn.
  - destruct (params_eqb p q); reflexivity.
  - destruct (params_eqb k p) eqn:E; cbn.
    + apply params_eqb_spec in E. subst k.
      destruct (params_eqb p q) eqn:E2; [reflexivity|].
      reflexivity.
    + rewrite IH. destruct (params_eqb k q) eqn:E2; [|reflexivity].
      destruct (params_eqb p q) eqn:E3; [|reflexivity].
      apply params_eqb_spec in E2, E3. subst. rewrite params_eqb_refl in E. discriminate.
Qed.
Lemma find_app bs bs' p :
  find_block (bs ++ bs') p
  = match find_block bs p with Some b => Some b | None => find_block bs' p end.
Proof.
  induction bs as [|[k b] bs IH]; cbn; [reflexivity|].
  destruct (params_eqb k p); [reflexivity | apply IH].
Qed.

(* ------------------------------------------------------------------------ *)
(** * The effect of one successful registration *)

Definition uses_after (c : coll) (p : params) (n : uses) : list (nat * uses) :=
  fold_left (fun u v => bump u v n) (vars_of p) (c_uses c).

Inductive commits (scope r : reuse) (k : cls) (a : string) (t : part) (c : coll) : coll -> Prop :=
| commit_new : find_block (c_blocks c) (pt_params t) = None -> resolve scope r <> RTrue ->
    overlap (pt_params t) c = false ->
    commits scope r k a t c
      (set_uses (uses_after c (pt_params t) (pt_uses t))
        (set_blocks (c_blocks c ++ [(pt_params t, mkBlock k a [pt_tower t])]) c))
| commit_old b0 : find_block (c_blocks c) (pt_params t) = Some b0 -> b_cls b0 = k ->
    (resolve scope r = RTrue \/ resolve scope r = RAuto) ->
    commits scope r k a t c
      (set_uses (uses_after c (pt_params t) (pt_uses t))
        (set_blocks (append_tower (c_blocks c) (pt_params t) (pt_tower t)) c)).

Lemma set_blocks_same c : set_blocks (c_blocks c) c = c.
Proof. destruct c; reflexivity. Qed.

(** The common tail: register the block, add the tower, count the uses. *)
Definition tail (scope : reuse) (p : params) (k : cls) (a : string) (r : reuse)
    (m : params -> M unit) : M unit :=
  let! key := register_block scope p (mkBlock k a []) r in m key.

Lemma tail_atomic scope p k a r (m : params -> M unit) tw n c :
  (forall c1, m p c1 = (set_uses (uses_after c1 p n)
                          (set_blocks (append_tower (c_blocks c1) p tw) c1), Ok tt)) ->
  atomic (let! key := register_block scope p (mkBlock k a []) r in m key) c
    (fun _ c' => c_final c = false /\ commits scope r k a (mkPart p tw n) c c').
Proof.
  intros Hm. unfold atomic. rewrite mbind_eq.
  destruct (register_block_atomic scope p (mkBlock k a []) r c)
    as [(e & E)|(key & c1 & E & -> & Fi & Rg)]; rewrite E.
  - left. eauto.
  - right. exists tt. eexists. split; [apply Hm|]. split; [assumption|].
    inversion Rg; subst.
    + cbn [c_blocks set_blocks]. rewrite append_tower_new by assumption. cbn.
      pose proof (commit_new scope r k a (mkPart p tw n) c) as K. cbn in K.
      unfold uses_after in *. cbn. apply K; assumption.
    + pose proof (commit_old scope r k a (mkPart p tw n) c1 b0) as K. cbn in K. apply K; auto.
Qed.

Lemma finish_simple p tw n c1 :
  (let! _ := add_tower p tw in add_uses p n) c1
  = (set_uses (uses_after c1 p n) (set_blocks (append_tower (c_blocks c1) p tw) c1), Ok tt).
Proof. reflexivity. Qed.

Lemma finish_multi_clean p i o c1 :
  matching i o ->
  finish_multi p p i o c1
  = (set_uses (uses_after c1 p (Fin (num_inputs i)))
       (set_blocks (append_tower (c_blocks c1) p (mkTower (ids i) (ids o))) c1), Ok tt).
Proof.
  intros H. unfold finish_multi. rewrite mbind_eq. cbn [add_tower].
  destruct i as [t|ts]; [reflexivity|]. destruct o as [u|us]; [destruct H|].
  cbn in H. rewrite H, Nat.eqb_refl. cbn. unfold uses_after, add_uses. cbn. rewrite H. reflexivity.
Qed.

(** Which class and approximation a call asks for. *)
Definition effective (c : coll) (k : kind) (p : params) (approx : option string) : string :=
  match approx with
  | Some a => a
  | None => match get_linked_approx c p with Some a => a | None => default_of k (c_def c) end
  end.
Definition requested (c : coll) (l : layer_call) : option (cls * string) :=
  match kind_of l with
  | Some (k, p, approx) =>
      match lookup (table_of k) (effective c k p approx) with
      | Some x => Some (x, effective c k p approx)
      | None => None
      end
  | None =>
      match l with
      | Depthwise _ _ _ _ _ _ _ _ => Some (DepthwiseConvDiagonalFB, "diagonal"%string)
      | Conv1d _ _ _ _ _ | Convolution _ _ _ _ _ => Some (ConvKFCBasicFB, "kron"%string)
      | _ => None
      end
  end.

Lemma get_block_type_eq k p approx d c :
  (forall c, d c = default_of k (c_def c)) ->
  get_block_type p approx d (table_of k) c
  = match lookup (table_of k) (effective c k p approx) with
    | Some x => (c, Ok (x, effective c k p approx))
    | None => (c, Raise ValueError)
    end.
Proof. intros Hd. unfold get_block_type, effective. rewrite Hd. reflexivity. Qed.

Lemma atomic_gbt {B} k p approx d (f : cls * string -> M B) c Q :
  (forall c, d c = default_of k (c_def c)) ->
  (forall x, lookup (table_of k) (effective c k p approx) = Some x ->
     atomic (f (x, effective c k p approx)) c Q) ->
  atomic (mbind (get_block_type p approx d (table_of k)) f) c Q.
Proof.
  intros Hd H. unfold atomic. rewrite mbind_eq, (get_block_type_eq k p approx d c Hd).
  destruct (lookup (table_of k) (effective c k p approx)) as [x|] eqn:L; [|left; eauto].
  apply H. reflexivity.
Qed.

Definition simple (l : layer_call) : Prop :=
  match l with Separable _ _ _ _ _ _ _ _ _ _ => False | _ => True end.

(** Every clean call is all-or-nothing, and its success is one commit. *)
Lemma layer_atomic shape scope l c :
  clean shape l ->
  atomic (run_layer shape scope l) c
    (fun _ c' => c_final c = false /\
       exists t k a, parts l = [t] /\ requested c l = Some (k, a) /\
                     commits scope (reuse_of l) k a t c c').
Proof.
  assert (W : forall t k a (m : M unit),
    parts l = [t] -> requested c l = Some (k, a) ->
    atomic m c (fun _ c' => c_final c = false /\ commits scope (reuse_of l) k a t c c') ->
    atomic m c (fun _ c' => c_final c = false /\
       exists t k a, parts l = [t] /\ requested c l = Some (k, a) /\
                     commits scope (reuse_of l) k a t c c')).
  { intros t k a m P R H. eapply atomic_weaken; [exact H|]. intros ? ? (? & ?). eauto 8. }
  destruct l; cbn [run_layer clean]; intros Hc.
  - unfold register_fully_connected. apply (atomic_gbt KFc); [reflexivity|]. intros x L.
    eapply W; [reflexivity | unfold requested; cbn [kind_of]; rewrite L; reflexivity |].
    apply tail_atomic. intros c1. rewrite mbind_eq.
    destruct dense; [cbn; apply finish_simple|].
    destruct Hc as [Hc|(v & -> & N)]; [discriminate|]. cbn. destruct (shape v); [congruence|].
    cbn. apply finish_simple.
  - unfold register_conv1d. apply atomic_bind_still; [apply still_assert|]. intros _ _.
    apply atomic_bind_still; [apply still_conv_kfc|]. intros _ _.
    eapply W; [reflexivity | reflexivity |]. apply tail_atomic. intros; apply finish_simple.
  - unfold register_conv2d. apply atomic_bind_still; [apply still_assert|]. intros _ _.
    apply (atomic_gbt KConv2d); [reflexivity|]. intros x L.
    assert (Rq : requested c (Conv2d p strides dil i o nhwc approx r)
                 = Some (x, effective c KConv2d p approx)).
    { unfold requested. cbn [kind_of]. rewrite L. reflexivity. }
    set (a := effective c KConv2d p approx) in *.
    assert (T : forall pre : M unit, still pre ->
      atomic (let! key := (let! _ := pre in register_block scope p (mkBlock x a []) r) in
              let! _ := add_tower key (mkTower [a_id i] [a_id o]) in add_uses p (Fin 1)) c
        (fun _ c' => c_final c = false /\
           commits scope r x a (mkPart p (mkTower (one i) (one o)) (Fin 1)) c c')).
    { intros pre Hp. unfold atomic. rewrite !mbind_eq. specialize (Hp c).
      destruct (pre c) as [c' [u|e]]; cbn in Hp; subst c'; [|left; eauto].
      pose proof (tail_atomic scope p x a r
        (fun key => let! _ := add_tower key (mkTower [a_id i] [a_id o]) in add_uses p (Fin 1))
        (mkTower (one i) (one o)) (Fin 1) c (fun _ => eq_refl)) as T.
      unfold atomic in T. rewrite mbind_eq in T. exact T. }
    destruct (String.eqb a "kron"); [eapply W; [reflexivity|exact Rq|]; apply T; apply still_conv_kfc|].
    destruct (String.eqb a "diagonal").
    { eapply W; [reflexivity|exact Rq|].
      specialize (T (let! ok := lift (unit_ends strides) in let! _ := assert_ ok in
                     conv_diag_ctor shape p strides dil nhwc)).
      unfold atomic in *. rewrite !mbind_eq in *.
      unfold lift in *. destruct (unit_ends strides) as [ok|e]; [|left; eauto].
      rewrite !mbind_eq in *. destruct ok; [|left; exists AssertionError; reflexivity].
      cbn [assert_ ret] in *. apply T.
      intros c0. rewrite !mbind_eq. cbn. apply still_conv_diag. }
    destruct (String.eqb a "kron_sua"); [eapply W; [reflexivity|exact Rq|]; apply T; apply still_conv_kfc|].
    apply atomic_raise.
  - unfold register_convolution, register_conv1d.
    apply atomic_bind_still; [apply still_assert|]. intros _ _.
    apply atomic_bind_still; [apply still_conv_kfc|]. intros _ _.
    eapply W; [reflexivity | reflexivity |]. apply tail_atomic. intros; apply finish_simple.
  - unfold register_depthwise_conv2d.
    apply atomic_bind_still; [apply still_assert|]. intros _ _.
    apply atomic_bind_still; [apply still_assert|]. intros _ _.
    apply atomic_bind_still; [apply still_depthwise|]. intros _ _.
    eapply W; [reflexivity | reflexivity |]. apply tail_atomic. intros; apply finish_simple.
  - destruct Hc.
  - unfold register_generic. apply (atomic_gbt KGeneric); [reflexivity|]. intros x L.
    destruct (_ && _); [apply atomic_raise|].
    eapply W; [reflexivity | unfold requested; cbn [kind_of]; rewrite L; reflexivity |].
    apply tail_atomic. intros; apply finish_simple.
  - unfold register_fully_connected_multi. apply (atomic_gbt KFcMulti); [reflexivity|]. intros x L.
    eapply W; [reflexivity | unfold requested; cbn [kind_of]; rewrite L; reflexivity |].
    destruct Hc as [Hd Hm].
    apply tail_atomic. intros c1. rewrite mbind_eq.
    destruct dense; [cbn [ret]; apply finish_multi_clean; assumption|].
    destruct Hd as [Hd|(v & -> & N)]; [discriminate|].
    assert (O : forall c2, lift (one_hot_depth shape (PVar v)) c2 = (c2, Ok (hd 0 (shape v)))).
    { intros c2. unfold lift. cbn. destruct (shape v); [congruence|reflexivity]. }
    destruct i as [t|[|t ts]]; rewrite ?O; cbn [ret]; apply finish_multi_clean; assumption.
  - unfold register_conv2d_multi. apply atomic_bind_still; [apply still_assert|]. intros _ _.
    apply (atomic_gbt KConv2dMulti); [reflexivity|]. intros x L.
    apply atomic_bind_still; [apply still_conv_kfc|]. intros _ _.
    eapply W; [reflexivity | unfold requested; cbn [kind_of]; rewrite L; reflexivity |].
    apply tail_atomic. intros; apply finish_multi_clean; assumption.
  - unfold register_scale_and_shift. apply atomic_bind_still.
    { destruct p as [v|[|v [|w vs]]]; try apply still_raise; try apply still_ret.
      apply still_bind; [apply still_lift | intros; apply still_ret]. }
    intros sc _. apply atomic_bind_still; [apply still_lift|]. intros _ _.
    apply (atomic_gbt KScaleShift); [reflexivity|]. intros x L.
    eapply W; [reflexivity | unfold requested; cbn [kind_of]; rewrite L; reflexivity |].
    apply tail_atomic. intros; apply finish_simple.
Qed.
