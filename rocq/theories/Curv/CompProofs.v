(** Curvature matrix-vector products: factorisation, linearity, symmetry. *)
From Coq Require Import List Arith Bool Reals Lra Lia.
From Verif.Base Require Import Py ListFacts.
From Verif.Curv Require Import Model Spec VecProofs LossProofs.
Import ListNotations.
Open Scope list_scope.
Open Scope R_scope.

Lemma F2_length {A B} (P : A -> B -> Prop) l m : Forall2 P l m -> length l = length m.
Proof. induction 1; simpl; congruence. Qed.
Lemma F2_impl {A B} (P Q : A -> B -> Prop) l m : (forall a b, P a b -> Q a b) -> Forall2 P l m -> Forall2 Q l m.
Proof. induction 2; constructor; auto. Qed.

(* ------------------------------------------------------------------------ *)
(** * Tensors are determined by their inner products *)

Lemma dot_zero x : dot x x = 0 -> forall i, nth i x 0 = 0.
Proof.
  induction x as [|a x IH]; intros H [|i]; simpl; auto; rewrite dot_cons in H;
    pose proof (dot_self_nonneg x); pose proof (Rle_0_sqr a) as Ha; unfold Rsqr in Ha.
  - nra.
  - apply IH. nra.
Qed.
Lemma row_ext x y : length x = length y -> (forall v, length v = length x -> dot x v = dot y v) -> x = y.
Proof.
  intros HL H. apply (nth_ext _ _ 0 0); auto. intros i Hi.
  assert (Z : dot (map2 Rminus x y) (map2 Rminus x y) = 0).
  { rewrite dot_sub_l by auto. rewrite H by (apply map2_length_eq; auto). ring. }
  pose proof (dot_zero _ Z i) as Zi. rewrite (nth_map2 Rminus x y i 0 0) in Zi by lia. lra.
Qed.
Lemma zeros_dot n y : dot (repeat 0 n) y = 0.
Proof.
  revert y; induction n; intros [|b y]; simpl repeat; rewrite ?dot_nil_l, ?dot_nil_r, ?dot_cons; auto.
  rewrite IHn; ring.
Qed.
Lemma zeros_shape sizes : map (@length R) (zeros sizes) = sizes.
Proof. unfold zeros. induction sizes; simpl; rewrite ?repeat_length; congruence. Qed.
Lemma zeros_tdot sizes y : tdot (zeros sizes) y = 0.
Proof.
  revert y; induction sizes as [|n s IH]; intros [|b y]; simpl; rewrite ?tdot_nil_l, ?tdot_nil_r; auto.
  unfold zeros in *. rewrite tdot_cons, zeros_dot, IH. ring.
Qed.
Lemma tensor_ext x y : map (@length R) x = map (@length R) y ->
  (forall v, map (@length R) v = map (@length R) x -> tdot x v = tdot y v) -> x = y.
Proof.
  revert y; induction x as [|a x IH]; intros [|b y] HS H; try discriminate; auto.
  apply shape_cons in HS as [Ha Hx]. f_equal.
  - apply row_ext; auto. intros v Hv.
    specialize (H (v :: zeros (map (@length R) x))). rewrite !tdot_cons in H.
    rewrite (tdot_comm x), (tdot_comm y), !zeros_tdot in H. 
    assert (E : dot a v + 0 = dot b v + 0) by (apply H; simpl; rewrite zeros_shape, Hv; auto). lra.
  - apply IH; auto. intros v Hv. specialize (H (repeat 0 (length a) :: v)). rewrite !tdot_cons in H.
    rewrite (dot_comm a), (dot_comm b), !zeros_dot in H.
    assert (E : 0 + tdot x v = 0 + tdot y v) by (apply H; simpl; rewrite repeat_length, Hv; auto). lra.
Qed.

(* ------------------------------------------------------------------------ *)
(** * One loss with one input tensor, as total functions *)

Definition unV1 (r : res lvec) : tensor := match r with Ok (V1 t) => t | _ => [] end.
Definition fT (l : loss) (t : tensor) : tensor := unV1 (multiply_fisher l (V1 t)).
Definition bT (l : loss) (t : tensor) : tensor := unV1 (multiply_fisher_factor l (V1 t)).
Definition btT (l : loss) (t : tensor) : tensor := unV1 (multiply_fisher_factor_transpose l (V1 t)).

Notation lshaped := like (only parsing).

Lemma lshaped_shape l t : lshaped l t <-> map (@length R) t = repeat (inner_width l) (batch l).
Proof. apply shaped_shape. Qed.

Lemma natural_input l v : one_input l -> input_like l v -> exists t, v = V1 t /\ lshaped l t.
Proof. unfold one_input, lshaped. destruct l, v; simpl; intros; try discriminate; try contradiction; eauto. Qed.
Lemma natural_input_r l t : one_input l -> lshaped l t -> input_like l (V1 t).
Proof. unfold one_input, lshaped. destruct l; simpl; intros; try discriminate; auto. Qed.
Lemma lshaped_inner l t : lshaped l t <-> inner_like l (V1 t).
Proof. reflexivity. Qed.

Section OneLoss.
Variable l : loss.
Hypothesis wl : wf_loss l.
Hypothesis ol : one_input l.

Lemma fb_spec t : lshaped l t ->
  multiply_fisher_factor_transpose l (V1 t) = Ok (V1 (btT l t)) /\ lshaped l (btT l t) /\
  multiply_fisher l (V1 t) = Ok (V1 (fT l t)) /\ lshaped l (fT l t) /\
  bT l (btT l t) = fT l t.
Proof.
  intros Ht. destruct (fisher_factorises l (V1 t) wl (natural_input_r l t ol Ht)) as (u & w & E1 & Hu & E2 & E3 & Hw).
  destruct (natural_input l w ol Hw) as [w' [-> Hw']].
  destruct u as [u|]; [|contradiction].
  unfold btT, fT, bT. rewrite E1, E3. simpl unV1. rewrite E2. simpl. auto.
Qed.

Lemma b_spec u : lshaped l u -> multiply_fisher_factor l (V1 u) = Ok (V1 (bT l u)) /\ lshaped l (bT l u).
Proof.
  intros Hu.
  assert (Hz : lshaped l (zeros (repeat (inner_width l) (batch l)))) by (apply lshaped_shape, zeros_shape).
  destruct (factor_adjoint l (V1 u) (V1 _) wl Hu (natural_input_r l _ ol Hz)) as (w & x & E1 & E2 & Hw & _).
  destruct (natural_input l w ol Hw) as [w' [-> Hw']].
  unfold bT. rewrite E1. simpl; auto.
Qed.

Lemma b_adj u v : lshaped l u -> lshaped l v -> tdot (bT l u) v = tdot u (btT l v).
Proof.
  intros Hu Hv. destruct (factor_adjoint l (V1 u) (V1 v) wl Hu (natural_input_r l _ ol Hv)) as (w & x & E1 & E2 & Hw & E).
  destruct (natural_input l w ol Hw) as [w' [-> Hw']].
  destruct (fb_spec v Hv) as (E3 & _). rewrite E3 in E2. injection E2 as <-.
  unfold bT. rewrite E1. simpl in *. auto.
Qed.

Lemma f_gram u v : lshaped l u -> lshaped l v -> tdot (fT l u) v = tdot (btT l u) (btT l v).
Proof.
  intros Hu Hv. destruct (fb_spec u Hu) as (_ & H1 & _ & _ & <-). apply b_adj; auto.
Qed.

Lemma shape_scale a t : lshaped l t -> lshaped l (tscale a t).
Proof. apply tscale_shaped. Qed.
Lemma shape_add t u : lshaped l t -> lshaped l u -> lshaped l (tadd t u).
Proof. rewrite !lshaped_shape. intros H1 H2. rewrite tadd_shape; congruence. Qed.
Lemma same_shape t u : lshaped l t -> lshaped l u -> map (@length R) t = map (@length R) u.
Proof. rewrite !lshaped_shape. congruence. Qed.

Lemma b_scale a u : lshaped l u -> bT l (tscale a u) = tscale a (bT l u).
Proof.
  intros Hu. assert (Hau := shape_scale a u Hu).
  destruct (b_spec _ Hau) as [_ S1]. destruct (b_spec _ Hu) as [_ S2].
  apply tensor_ext; [apply same_shape; auto; apply shape_scale; auto|].
  intros v Hv. assert (Hv' : lshaped l v) by (apply lshaped_shape; rewrite Hv; apply lshaped_shape; auto).
  rewrite b_adj, !tdot_scale_l, b_adj; auto.
Qed.
Lemma bt_lin a u v : lshaped l u -> lshaped l v ->
  btT l (tadd (tscale a u) v) = tadd (tscale a (btT l u)) (btT l v).
Proof.
  intros Hu Hv. assert (Hs := shape_add _ _ (shape_scale a u Hu) Hv).
  destruct (fb_spec _ Hs) as (_ & S1 & _). destruct (fb_spec _ Hu) as (_ & S2 & _). destruct (fb_spec _ Hv) as (_ & S3 & _).
  apply tensor_ext; [apply same_shape; auto; apply shape_add; auto; apply shape_scale; auto|].
  intros w Hw. assert (Hw' : lshaped l w) by (apply lshaped_shape; rewrite Hw; apply lshaped_shape; auto).
  rewrite tdot_comm, <- b_adj by auto.
  rewrite tdot_add_r by (apply same_shape; auto; apply shape_scale; auto).
  rewrite tdot_add_l by (apply same_shape; auto; apply shape_scale; auto).
  rewrite tdot_scale_r, tdot_scale_l, !b_adj by auto. rewrite (tdot_comm w), (tdot_comm w). ring.
Qed.
End OneLoss.

Lemma loss_mult_nat k l v : one_input l -> loss_mult k l v = multiply_fisher l v.
Proof. intros H; destruct k; simpl; auto. unfold multiply_ggn. rewrite H; auto. Qed.
Lemma loss_factor_nat k l v : one_input l -> loss_factor k l v = multiply_fisher_factor l v.
Proof. intros H; destruct k; simpl; auto. unfold multiply_ggn_factor. rewrite H; auto. Qed.
Lemma loss_factor_transpose_nat k l v : one_input l -> loss_factor_transpose k l v = multiply_fisher_factor_transpose l v.
Proof. intros H; destruct k; simpl; auto. unfold multiply_ggn_factor_transpose. rewrite H; auto. Qed.

(* ------------------------------------------------------------------------ *)
(** * The Jacobian and its transpose are adjoint *)

Lemma grad_row_spec wrt gs ws z : Forall (wrt_like wrt) gs -> wrt_like wrt z ->
  wrt_like wrt (grad_row z gs ws) /\
  forall v, tdot (grad_row z gs ws) v = tdot z v + dot ws (map (fun g => tdot g v) gs).
Proof.
  unfold grad_row, wrt_like. intros H; revert ws; induction H as [|g gs Hg Hgs IH]; intros [|w ws] Hz; simpl.
  - split; auto. intros. rewrite dot_nil_l; ring.
  - split; auto. intros. rewrite dot_nil_r; ring.
  - split; auto. intros. rewrite dot_nil_l; ring.
  - destruct (IH ws Hz) as [S1 S2]. split.
    + rewrite tadd_shape; rewrite tscale_shape; auto; congruence.
    + intros v. rewrite tdot_add_l by (rewrite tscale_shape; congruence).
      rewrite tdot_scale_l, S2, dot_cons. ring.
Qed.

Lemma grad_tensor_spec wrt gs ws z : Forall (Forall (wrt_like wrt)) gs -> wrt_like wrt z ->
  wrt_like wrt (grad_tensor z gs ws) /\
  forall v, tdot (grad_tensor z gs ws) v = tdot z v + tdot ws (push gs v).
Proof.
  unfold grad_tensor. intros H; revert ws; induction H as [|g gs Hg Hgs IH]; intros [|w ws] Hz; simpl.
  - split; auto. intros. rewrite tdot_nil_l; ring.
  - split; auto. intros. rewrite tdot_nil_r; ring.
  - split; auto. intros. rewrite tdot_nil_l; ring.
  - destruct (IH ws Hz) as [S1 S2]. destruct (grad_row_spec wrt g w _ Hg S1) as [S3 S4]. split; auto.
    intros v. rewrite S4, S2. cbn [push map]. rewrite tdot_cons. unfold push. ring.
Qed.

Fixpoint sum_losses (ws xs : list tensor) : R :=
  match ws, xs with
  | w :: ws', x :: xs' => tdot w x + sum_losses ws' xs'
  | _, _ => 0
  end.

Lemma grad_all_spec wrt js ws z : Forall (Forall (Forall (wrt_like wrt))) js -> wrt_like wrt z ->
  wrt_like wrt (grad_all z js ws) /\
  forall v, tdot (grad_all z js ws) v = tdot z v + sum_losses ws (map (fun j => push j v) js).
Proof.
  unfold grad_all. intros H; revert ws; induction H as [|g gs Hg Hgs IH]; intros [|w ws] Hz; simpl.
  - split; auto. intros; ring.
  - split; auto. intros; ring.
  - split; auto. intros; ring.
  - destruct (IH ws Hz) as [S1 S2]. destruct (grad_tensor_spec wrt g w _ Hg S1) as [S3 S4]. split; auto.
    intros v. rewrite S4, S2. ring.
Qed.

(* ------------------------------------------------------------------------ *)
(** * The whole computer *)

Lemma flatten_V1 ts : flatten (map V1 ts) = ts.
Proof. unfold flatten. induction ts; simpl; congruence. Qed.

Lemma pack_natural ls ts : Forall one_input ls -> length ts = length ls -> pack ls ts = Ok (map V1 ts).
Proof.
  intros H; revert ts; induction H as [|l ls Hl Hls IH]; intros [|t ts] L; try discriminate; auto.
  simpl in L. unfold one_input in Hl.
  destruct l; try discriminate; cbn [pack]; rewrite IH by lia; reflexivity.
Qed.

Lemma across_ok c f g ts m :
  Forall2 (fun lc t => f (fst lc) (V1 t) = Ok (V1 (g (fst lc) t))) (c_losses c) ts ->
  multiply_across_losses c f (map V1 ts) m =
  Ok (map V1 (map2 (fun lc t => tscale (match m with Regular => snd lc | Sqrt => sqrt (snd lc) end) (g (fst lc) t))
                   (c_losses c) ts)).
Proof.
  unfold multiply_across_losses. induction 1 as [|[l co] t ls ts E H IH]; auto.
  cbn [map zip]. cbn [mapM]. simpl in E. rewrite E. cbn [bind].
  rewrite IH. rewrite map2_cons. reflexivity.
Qed.

Section Comp.
Variables (k : mat) (c : computer).
Hypothesis wfc : wf_computer c.

Notation ls := (c_losses c).
Notation js := (c_jac c).
Notation wrt := (c_wrt c).
Notation J v := (map (fun j => push j v) js).

Lemma wf_losses : Forall (fun lc => wf_loss (fst lc) /\ one_input (fst lc) /\ 0 <= snd lc) ls.
Proof. apply wfc. Qed.
Lemma nat_losses : Forall one_input (map fst ls).
Proof. apply Forall_map. eapply Forall_impl; [|apply wf_losses]. simpl; intuition. Qed.
Lemma jac_len : length js = length ls.
Proof. destruct wfc as [_ H]. symmetry. eapply F2_length; eauto. Qed.
Lemma jac_grads : Forall (Forall (Forall (wrt_like wrt))) js.
Proof.
  destruct wfc as [_ H]. induction H as [|lc j ls' js' [_ Hj] _ IH]; constructor; auto.
  eapply Forall_impl; [|exact Hj]. simpl; intuition.
Qed.
Lemma push_shaped l j v : jac_like wrt l j -> lshaped l (push j v).
Proof.
  intros [H1 H2]. split; [unfold push; rewrite map_length; auto|].
  unfold push. apply Forall_map. eapply Forall_impl; [|exact H2].
  intros gs [Hg _]. rewrite map_length; auto.
Qed.
Lemma J_shaped v : Forall2 (fun lc t => (wf_loss (fst lc) /\ one_input (fst lc) /\ 0 <= snd lc) /\ lshaped (fst lc) t) ls (J v).
Proof.
  destruct wfc as [H1 H2]. revert H1. induction H2 as [|lc j ls' js' Hj _ IH]; intros H1; constructor; inversion H1; subst; auto.
  split; auto. apply push_shaped; auto.
Qed.

Lemma jac_ok v : multiply_jacobian c v = Ok (map V1 (J v)).
Proof.
  unfold multiply_jacobian. apply pack_natural; [apply nat_losses|].
  rewrite !map_length. apply jac_len.
Qed.
Lemma jact_ok ts : length ts = length js ->
  multiply_jacobian_transpose c (map V1 ts) = Ok (grad_all (zeros wrt) js ts).
Proof.
  intros H. unfold multiply_jacobian_transpose. cbv zeta. rewrite flatten_V1, H, Nat.eqb_refl. reflexivity.
Qed.

Definition prod_of (ts : list tensor) : tensor := grad_all (zeros wrt) js ts.
Lemma prod_shape ts : wrt_like wrt (prod_of ts).
Proof. apply grad_all_spec; [apply jac_grads|apply zeros_shape]. Qed.
Lemma prod_dot ts v : tdot (prod_of ts) v = sum_losses ts (J v).
Proof.
  unfold prod_of. destruct (grad_all_spec wrt js ts (zeros wrt) jac_grads (zeros_shape wrt)) as [_ E].
  rewrite E, zeros_tdot. ring.
Qed.

Definition weighted (v : tensor) : list tensor :=
  map2 (fun lc t => tscale (snd lc) (fT (fst lc) t)) ls (J v).
Definition inner (v : tensor) : list tensor :=
  map2 (fun lc t => tscale (sqrt (snd lc)) (btT (fst lc) t)) ls (J v).
Definition outer (us : list tensor) : list tensor :=
  map2 (fun lc u => tscale (sqrt (snd lc)) (bT (fst lc) u)) ls us.

Lemma curv_ok v : multiply_curv k c v = Ok (prod_of (weighted v)).
Proof.
  unfold multiply_curv. rewrite jac_ok. cbn [bind].
  rewrite (across_ok c (loss_mult k) fT (J v) Regular).
  - cbn [bind]. rewrite jact_ok; [reflexivity|].
    rewrite (map2_length_eq _ _ _ (length js)); rewrite ?map_length; auto. symmetry; apply jac_len.
  - eapply F2_impl; [|apply J_shaped]. intros [l co] t [[W [N _]] Hs]. simpl in *.
    rewrite loss_mult_nat by auto. apply (fb_spec l W N t Hs).
Qed.

Lemma factor_transpose_ok v : multiply_curv_factor_transpose k c v = Ok (map V1 (inner v)).
Proof.
  unfold multiply_curv_factor_transpose. rewrite jac_ok. cbn [bind].
  rewrite (across_ok c (loss_factor_transpose k) btT (J v) Sqrt); [reflexivity|].
  eapply F2_impl; [|apply J_shaped]. intros [l co] t [[W [N _]] Hs]. simpl in *.
  rewrite loss_factor_transpose_nat by auto. apply (fb_spec l W N t Hs).
Qed.

Lemma factor_ok us : Forall2 (fun lc u => lshaped (fst lc) u) ls us ->
  multiply_curv_factor k c (map V1 us) = Ok (prod_of (outer us)).
Proof.
  intros H. unfold multiply_curv_factor.
  assert (L : length us = length ls) by (symmetry; eapply F2_length; eauto).
  rewrite (across_ok c (loss_factor k) bT us Sqrt).
  - cbn [bind]. rewrite jact_ok; [reflexivity|].
    rewrite (map2_length_eq _ _ _ (length js)); rewrite ?L; auto; symmetry; apply jac_len.
  - pose proof wf_losses as WL. clear - H WL. induction H as [|[l co] u ls us Hu H IH]; constructor; inversion WL; subst; auto.
    simpl in *. destruct H2 as [W [N _]]. rewrite loss_factor_nat by auto. apply (b_spec l W N u Hu).
Qed.

Lemma inner_shaped v : Forall2 (fun lc u => lshaped (fst lc) u) ls (inner v).
Proof.
  unfold inner. pose proof (J_shaped v) as H.
  induction H as [|[l co] t ls' ts [[W [N _]] Hs] H IH]; [constructor|].
  rewrite map2_cons. constructor; auto. simpl in *. apply shape_scale. apply (fb_spec l W N t Hs).
Qed.

Lemma outer_inner v : outer (inner v) = weighted v.
Proof.
  unfold outer, inner, weighted. pose proof (J_shaped v) as H.
  induction H as [|[l co] t ls' ts [[W [N P]] Hs] H IH]; auto.
  rewrite !map2_cons, IH. f_equal. simpl in *.
  destruct (fb_spec l W N t Hs) as (_ & S1 & _ & _ & E).
  rewrite (b_scale l W N) by auto. rewrite tscale_compose, sqrt_sqrt, E by auto. reflexivity.
Qed.

Lemma sum_losses_gram u v :
  sum_losses (weighted u) (J v) = sum_losses (inner u) (inner v).
Proof.
  unfold weighted, inner.
  pose proof (J_shaped u) as Hu. pose proof (J_shaped v) as Hv.
  revert Hu Hv. generalize (J u) (J v). generalize (c_losses c).
  induction l as [|[l co] ls' IH]; intros ju jv Hu Hv; inversion Hu; inversion Hv; subst; auto.
  rewrite !map2_cons. cbn [sum_losses]. simpl fst; simpl snd.
  destruct H1 as [[W [N P]] S1], H6 as [_ S2]. simpl in *.
  rewrite IH by auto. rewrite !tdot_scale_l, tdot_scale_r, (f_gram l W N) by auto.
  rewrite <- (sqrt_sqrt co P) at 1. ring.
Qed.

Lemma sum_losses_comm a b : sum_losses a b = sum_losses b a.
Proof. revert b; induction a; intros [|y b]; simpl; auto. rewrite tdot_comm, IHa. auto. Qed.
Lemma sum_losses_nonneg a : 0 <= sum_losses a a.
Proof. induction a; simpl; [lra|]. pose proof (tdot_self_nonneg a). lra. Qed.

Lemma curv_gram u v : tdot (prod_of (weighted u)) v = sum_losses (inner u) (inner v).
Proof. rewrite prod_dot. apply sum_losses_gram. Qed.
Lemma curv_symmetric u v : tdot (prod_of (weighted u)) v = tdot u (prod_of (weighted v)).
Proof. rewrite (tdot_comm u), !curv_gram. apply sum_losses_comm. Qed.
Lemma curv_psd v : 0 <= tdot v (prod_of (weighted v)).
Proof. rewrite tdot_comm, curv_gram. apply sum_losses_nonneg. Qed.

Lemma factor_adjoint_all us v : Forall2 (fun lc u => lshaped (fst lc) u) ls us ->
  tdot (prod_of (outer us)) v = sum_losses us (inner v).
Proof.
  intros H. rewrite prod_dot. unfold outer, inner. pose proof (J_shaped v) as Hv.
  revert Hv. generalize (J v). induction H as [|[l co] u ls' us Hu H IH]; intros jv Hv; inversion Hv; subst; auto.
  rewrite !map2_cons. cbn [sum_losses]. simpl fst; simpl snd. destruct H2 as [[W [N P]] S2]. simpl in *.
  rewrite IH by auto. rewrite tdot_scale_l, tdot_scale_r, (b_adj l W N) by auto. reflexivity.
Qed.

Lemma push_lin l j a u v : jac_like wrt l j -> wrt_like wrt u -> wrt_like wrt v ->
  push j (tadd (tscale a u) v) = tadd (tscale a (push j u)) (push j v).
Proof.
  intros [_ Hj] Hu Hv. unfold push, tadd, tscale. induction Hj as [|gs j [_ Hg] Hj IH]; auto.
  cbn [map]. rewrite map2_cons, IH. f_equal. clear - Hg Hu Hv.
  unfold radd, rscale. induction Hg as [|g gs Hg Hgs IH]; auto.
  cbn [map]. rewrite map2_cons, IH. f_equal.
  change (tdot g (tadd (tscale a u) v) = a * tdot g u + tdot g v).
  unfold wrt_like in *. rewrite tdot_add_r by (rewrite tscale_shape; congruence).
  rewrite tdot_scale_r. reflexivity.
Qed.

Lemma curv_linear a u v : wrt_like wrt u -> wrt_like wrt v ->
  prod_of (weighted (tadd (tscale a u) v)) = tadd (tscale a (prod_of (weighted u))) (prod_of (weighted v)).
Proof.
  intros Hu Hv.
  assert (S1 := prod_shape (weighted (tadd (tscale a u) v))).
  assert (S2 := prod_shape (weighted u)). assert (S3 := prod_shape (weighted v)).
  unfold wrt_like in *.
  apply tensor_ext; [rewrite tadd_shape; rewrite tscale_shape; congruence|].
  intros w Hw. rewrite S1 in Hw.
  rewrite curv_symmetric. rewrite tdot_add_l by (rewrite tscale_shape; congruence).
  rewrite tdot_add_l by (rewrite tscale_shape; congruence).
  rewrite !tdot_scale_l, !curv_symmetric. reflexivity.
Qed.

(** The bilinear form, loss by loss. *)
Lemma curv_form u v : tdot u (prod_of (weighted v)) =
  rsum (map2 (fun lc j => snd lc * tdot (push j u) (fT (fst lc) (push j v))) ls js).
Proof.
  rewrite tdot_comm, prod_dot. unfold weighted.
  pose proof jac_len as HL. revert HL. generalize (c_losses c) (c_jac c).
  induction l as [|[l co] ls' IH]; intros [|j js'] HL; try discriminate; auto.
  cbn [map]. rewrite !map2_cons. cbn [sum_losses rsum fold_right]. simpl fst; simpl snd. simpl in HL.
  rewrite IH by lia. rewrite tdot_scale_l, (tdot_comm (fT _ _)). reflexivity.
Qed.
End Comp.

(** The part for one loss. *)
Lemma only_wf c l co j : wf_computer c -> In ((l, co), j) (zip (c_losses c) (c_jac c)) -> wf_computer (only c l j).
Proof.
  intros [H1 H2] HI. unfold only.
  assert (HH : (wf_loss l /\ one_input l) /\ jac_like (c_wrt c) l j).
  { revert H1 HI. induction H2 as [|lc j' ls js Hj _ IH]; intros H1 HI; [contradiction|].
    inversion H1; subst. destruct HI as [HI|HI].
    - injection HI as -> ->. simpl in *. intuition.
    - apply IH; auto. }
  destruct HH as [[W N] Hj]. split; simpl.
  - constructor; [|constructor]. simpl. intuition lra.
  - constructor; auto.
Qed.

Lemma combine_spec wrt xs : Forall (fun p => wrt_like wrt (snd p)) xs ->
  wrt_like wrt (combine_losses wrt xs) /\
  forall v, tdot (combine_losses wrt xs) v = rsum (map (fun p => fst p * tdot (snd p) v) xs).
Proof.
  unfold wrt_like. induction 1 as [|[a x] xs Hx H [S IH]]; simpl.
  - split; [apply zeros_shape|]. intros; apply zeros_tdot.
  - simpl in Hx. split; [rewrite tadd_shape; rewrite tscale_shape; congruence|].
    intros v. rewrite tdot_add_l by (rewrite tscale_shape; congruence).
    rewrite tdot_scale_l, IH. reflexivity.
Qed.

Lemma rsum_map_zip {A B} (f : A -> B -> R) l m : rsum (map2 f l m) = rsum (map (fun p => f (fst p) (snd p)) (zip l m)).
Proof. reflexivity. Qed.

Lemma only_form c l co j u v : wf_computer c -> In ((l, co), j) (zip (c_losses c) (c_jac c)) ->
  tdot u (prod_of (only c l j) (weighted (only c l j) v)) = tdot (push j u) (fT l (push j v)).
Proof.
  intros W HI. rewrite (curv_form _ (only_wf c l co j W HI)). simpl. unfold map2. simpl. ring.
Qed.

Lemma curv_decompose k c v : wf_computer c ->
  exists parts,
    Forall2 (fun p x => let '((l, co), j) := p in fst x = co /\ multiply_curv k (only c l j) v = Ok (snd x))
            (zip (c_losses c) (c_jac c)) parts /\
    multiply_curv k c v = Ok (combine_losses (c_wrt c) parts).
Proof.
  intros W.
  set (parts := map (fun p => (snd (fst p), prod_of (only c (fst (fst p)) (snd p)) (weighted (only c (fst (fst p)) (snd p)) v)))
                  (zip (c_losses c) (c_jac c))).
  exists parts. split.
  - unfold parts. assert (HI : incl (zip (c_losses c) (c_jac c)) (zip (c_losses c) (c_jac c))) by apply incl_refl.
    revert HI. generalize (zip (c_losses c) (c_jac c)) at 1 3 4. intros l HI.
    induction l as [|[[l' co] j] l IH]; constructor.
    + simpl. split; auto. apply curv_ok. apply (only_wf c l' co j W). apply HI; left; auto.
    + apply IH. intros x Hx; apply HI; right; auto.
  - rewrite (curv_ok k c W). f_equal.
    assert (HP : Forall (fun p => wrt_like (c_wrt c) (snd p)) parts).
    { apply Forall_forall. intros x Hx. apply in_map_iff in Hx as [[[l co] j] [<- Hin]]. simpl.
      exact (prod_shape (only c l j) (only_wf c l co j W Hin) _). }
    destruct (combine_spec (c_wrt c) parts HP) as [S1 S2].
    assert (S3 := prod_shape c W (weighted c v)). unfold wrt_like in *.
    apply tensor_ext; [congruence|]. intros u Hu.
    rewrite tdot_comm, (curv_form c W), S2, rsum_map_zip. unfold parts. rewrite map_map. f_equal.
    apply map_ext_in. intros [[l co] j] Hin. simpl fst; simpl snd.
    rewrite (tdot_comm (prod_of _ _)), (only_form c l co j u v W Hin). reflexivity.
Qed.

Lemma sum_losses_ldots us vs : sum_losses us vs = ldots (map V1 us) (map V1 vs).
Proof.
  unfold ldots. revert vs; induction us as [|u us IH]; intros [|v vs]; auto.
  cbn [map]. rewrite map2_cons. cbn [sum_losses rsum fold_right]. rewrite IH. reflexivity.
Qed.

(** The whole of the factorisation statement. *)
Lemma products_factorise k c v : wf_computer c ->
  exists a u, multiply_curv k c v = Ok a /\ wrt_like (c_wrt c) a /\
    multiply_curv_factor_transpose k c v = Ok u /\ multiply_curv_factor k c u = Ok a.
Proof.
  intros W. exists (prod_of c (weighted c v)), (map V1 (inner c v)).
  split; [apply curv_ok; auto|]. split; [apply prod_shape; auto|].
  split; [apply factor_transpose_ok; auto|].
  rewrite (factor_ok k c W) by (apply inner_shaped; auto). rewrite outer_inner; auto.
Qed.
Lemma products_linear k c a u v x y : wf_computer c -> wrt_like (c_wrt c) u -> wrt_like (c_wrt c) v ->
  multiply_curv k c u = Ok x -> multiply_curv k c v = Ok y ->
  multiply_curv k c (tadd (tscale a u) v) = Ok (tadd (tscale a x) y).
Proof.
  intros W Hu Hv. rewrite !(curv_ok k c W). intros [= <-] [= <-]. rewrite curv_linear; auto.
Qed.
Lemma products_symmetric k c u v x y : wf_computer c ->
  multiply_curv k c u = Ok x -> multiply_curv k c v = Ok y -> tdot x v = tdot u y.
Proof. intros W. rewrite !(curv_ok k c W). intros [= <-] [= <-]. apply curv_symmetric; auto. Qed.
Lemma products_psd k c v x : wf_computer c -> multiply_curv k c v = Ok x -> 0 <= tdot v x.
Proof. intros W. rewrite (curv_ok k c W). intros [= <-]. apply curv_psd; auto. Qed.
Lemma factors_adjoint k c us v : wf_computer c ->
  Forall2 (fun lc u => like (fst lc) u) (c_losses c) us ->
  exists x w, multiply_curv_factor k c (map V1 us) = Ok x /\ multiply_curv_factor_transpose k c v = Ok w /\
    tdot x v = ldots (map V1 us) w.
Proof.
  intros W H. exists (prod_of c (outer c us)), (map V1 (inner c v)).
  split; [apply factor_ok; auto|]. split; [apply factor_transpose_ok; auto|].
  rewrite factor_adjoint_all by auto. apply sum_losses_ldots.
Qed.

Lemma products_form k c u v a : wf_computer c -> multiply_curv k c v = Ok a ->
  exists ws,
    Forall2 (fun p w => multiply_fisher (fst (fst p)) (V1 (push (snd p) v)) = Ok (V1 w)) (zip (c_losses c) (c_jac c)) ws /\
    tdot u a = rsum (map2 (fun p w => snd (fst p) * tdot (push (snd p) u) w) (zip (c_losses c) (c_jac c)) ws).
Proof.
  intros W. rewrite (curv_ok k c W). intros [= <-].
  exists (map (fun p => fT (fst (fst p)) (push (snd p) v)) (zip (c_losses c) (c_jac c))). split.
  - destruct W as [W1 W2]. revert W1. induction W2 as [|[l co] j ls js Hj H IH]; intros W1; [constructor|].
    inversion W1 as [|? ? Wx Wxs]; subst. cbn [zip map]. constructor; [|apply IH; auto]. simpl in *.
    destruct Wx as [Wl [N _]]. apply (fb_spec l Wl N). exact (push_shaped (mkComp [] (c_wrt c) []) l j v Hj).
  - rewrite (curv_form c W). rewrite map2_self_map. reflexivity.
Qed.

Lemma two_input_raises n m s co wrt j1 j2 v us :
  let c := mkComp [(NormalMeanVariance n m s, co)] wrt [j1; j2] in
  multiply_curv Fisher c v = Raise AttributeError /\
  multiply_curv_factor Fisher c [V1 us] = Raise AttributeError /\
  (exists w, multiply_curv_factor_transpose Fisher c v = Ok w) /\
  multiply_curv GGN c v = Raise NotImplementedErr.
Proof. repeat split. eexists. reflexivity. Qed.

Lemma factor_transpose_all_losses c jacs v xs :
  c_jac c = concat jacs ->
  length jacs = length (c_losses c) ->
  Forall2 (fun p x => own_inputs (fst (fst p)) (snd p) v x) (zip (c_losses c) jacs) xs ->
  exists us, multiply_curv_factor_transpose Fisher c v = Ok us /\
    Forall2 (fun p u => let '((l, coeff), x) := p in
       exists w, multiply_fisher_factor_transpose l x = Ok (V1 w) /\ u = V1 (tscale (sqrt coeff) w))
      (zip (c_losses c) xs) us.
Proof.
  intros E L H. unfold multiply_curv_factor_transpose, multiply_jacobian, multiply_across_losses.
  rewrite E. simpl loss_factor_transpose. destruct c as [lcs wrt jac]; simpl in *. clear E jac.
  assert (K : pack (map fst lcs) (map (map (map (fun g => tdot g v))) (concat jacs)) = Ok xs /\
    exists us, mapM (fun p => let '((l, coeff), vec) := p in
      do val <- multiply_fisher_factor_transpose l vec;
      match val with V1 t => Ok (V1 (tscale (sqrt coeff) t)) | V2 _ _ => Raise AttributeError end)
      (zip lcs xs) = Ok us /\
    Forall2 (fun p u => let '((l, coeff), x) := p in
       exists w, multiply_fisher_factor_transpose l x = Ok (V1 w) /\ u = V1 (tscale (sqrt coeff) w))
      (zip lcs xs) us).
  { revert jacs xs L H. induction lcs as [|[l a] lcs IH]; intros jacs xs L H.
    - destruct jacs; [|discriminate]. inversion H; subst. simpl. split; [reflexivity|].
      exists []. split; [reflexivity|constructor].
    - destruct jacs as [|js jacs]; [discriminate|]. simpl in H. inversion H as [|? x ? xs' Hx Hr]; subst.
      destruct (IH jacs xs' ltac:(simpl in L; lia) Hr) as [P [us [M F]]]. clear IH. simpl in Hx.
      unfold own_inputs in Hx.
      destruct l; simpl in Hx.
      1-3: destruct Hx as [j [-> ->]]; simpl; rewrite P; simpl; split; [reflexivity|];
        rewrite M; simpl; eexists; split; [reflexivity|]; constructor; [|exact F];
        eexists; split; reflexivity.
      destruct Hx as [j1 [j2 [-> ->]]]. simpl. rewrite P. simpl. split; [reflexivity|].
      rewrite M. simpl. eexists; split; [reflexivity|]. constructor; [|exact F].
      eexists; split; reflexivity. }
  destruct K as [P [us [M F]]]. rewrite P. simpl. exists us. split; [exact M|exact F].
Qed.

Lemma one_hot_index_length l index : length index <> 1%nat ->
  multiply_fisher_factor_replicated_one_hot l index = Raise AssertionError.
Proof. destruct index as [|i [|j index]]; simpl; intros H; try reflexivity. congruence. Qed.
