(** The estimation modes: what the gradient lists estimate. *)
From Coq Require Import List Arith Bool Reals Lra Lia.
From Verif.Base Require Import Py ListFacts.
From Verif.Curv Require Import Model Spec VecProofs LossProofs GradProofs CompProofs MomentProofs.
Import ListNotations.
Open Scope list_scope.
Open Scope R_scope.

(** Sums of independent centred terms. *)
Lemma ind_sum_mean {A} (ds : list (dist A)) (fs : list (A -> R)) :
  Forall prob_dist ds -> Forall2 (fun (d : dist A) f => d f = 0) ds fs ->
  independent ds (fun t => rsum (map2 (fun f a => f a) fs t)) = 0.
Proof.
  intros H; revert fs; induction H as [|d ds Hd Hds IH]; intros fs H2; inversion H2 as [|? f ? fs' E H2']; subst; auto.
  cbn [independent]. assert (PI := independent_pd ds Hds).
  rewrite (pd_ext d Hd _ f); auto. intros a.
  rewrite (pd_ext _ PI _ (fun l => f a + rsum (map2 (fun f a => f a) fs' l)))
    by (intros; rewrite map2_cons; reflexivity).
  rewrite (pd_add _ PI (fun _ => f a) (fun l => rsum (map2 (fun f a => f a) fs' l))), (pd_const _ _ PI), IH by auto. ring.
Qed.

Lemma ind_sum_cov {A} (ds : list (dist A)) (fs gs : list (A -> R)) (xs : list R) :
  Forall prob_dist ds -> Forall2 (fun (d : dist A) f => d f = 0) ds fs -> Forall2 (fun (d : dist A) f => d f = 0) ds gs ->
  length xs = length ds ->
  (forall i d f g, nth_error ds i = Some d -> nth_error fs i = Some f -> nth_error gs i = Some g ->
     d (fun a => f a * g a) = nth i xs 0) ->
  independent ds (fun t => rsum (map2 (fun f a => f a) fs t) * rsum (map2 (fun f a => f a) gs t)) = rsum xs.
Proof.
  intros H; revert fs gs xs; induction H as [|d ds Hd Hds IH]; intros fs gs xs Hf Hg HL HX;
    inversion Hf as [|? f ? fs' Ef Hf']; inversion Hg as [|? g ? gs' Eg Hg']; subst.
  - destruct xs; [|discriminate]. simpl. unfold map2; simpl. ring.
  - destruct xs as [|x xs]; [discriminate|]. cbn [independent].
    assert (PI := independent_pd ds Hds).
    pose (F := fun l => rsum (map2 (fun f a => f a) fs' l)).
    pose (G := fun l => rsum (map2 (fun f a => f a) gs' l)).
    assert (M1 : independent ds F = 0) by exact (ind_sum_mean ds fs' Hds Hf').
    assert (M2 : independent ds G = 0) by exact (ind_sum_mean ds gs' Hds Hg').
    assert (M3 : independent ds (fun t => F t * G t) = rsum xs).
    { unfold F, G. apply IH; auto; simpl in HL; try lia. intros i d0 f0 g0 H1 H2 H3. apply (HX (S i)); auto. }
    rewrite (pd_ext d Hd _ (fun a => f a * g a + rsum xs)).
    + rewrite (pd_add d Hd (fun a => f a * g a) (fun _ => rsum xs)), (pd_const _ _ Hd).
      rewrite (HX O d f g) by reflexivity. reflexivity.
    + intros a. rewrite (pd_ext _ PI _ (fun l => (f a * g a + f a * G l) + (g a * F l + F l * G l))).
      * rewrite (pd_add _ PI (fun l => f a * g a + f a * G l) (fun l => g a * F l + F l * G l)).
        rewrite (pd_add _ PI (fun l => f a * g a) (fun l => f a * G l)).
        rewrite (pd_add _ PI (fun l => g a * F l) (fun l => F l * G l)).
        rewrite (pd_const _ _ PI), (pd_scale _ PI (f a) G), (pd_scale _ PI (g a) F). rewrite M1, M2, M3. ring.
      * intros l. rewrite !map2_cons. cbn [rsum fold_right]. fold rsum. unfold F, G, rsum. ring.
Qed.

(** The first two moments of a random tensor: mean zero and second moment [K]. *)
Definition moments (l : loss) (K : tensor -> tensor -> R) (d : dist tensor) : Prop :=
  forall x y, like l x -> like l y -> quad (like l) d (fun s => tdot s x) (fun s => tdot s y) (K x y).
(** The same for distributions that are linear on all functions. *)
Definition pd_moments (l : loss) (K : tensor -> tensor -> R) (d : dist tensor) : Prop :=
  prob_dist d /\
  (forall f g, (forall t, like l t -> f t = g t) -> d f = d g) /\
  (forall x, like l x -> d (fun s => tdot s x) = 0) /\
  (forall x y, like l x -> like l y -> d (fun s => tdot s x * tdot s y) = K x y).

Lemma pd_moments_moments l K d : pd_moments l K d -> moments l K d.
Proof. intros (P & S & M & C) x y Hx Hy. apply pd_quad; auto. Qed.

Lemma F2_repeat_l {A B} (P : A -> B -> Prop) a m n : length m = n -> Forall (P a) m -> Forall2 P (repeat a n) m.
Proof. intros H1 H2; revert n H1; induction H2; intros [|n] H1; simpl in *; try lia; constructor; auto. Qed.

Lemma nth_error_repeat_in {A} (a b : A) n i : nth_error (repeat a n) i = Some b -> b = a.
Proof. revert i; induction n; intros [|i] H; simpl in *; try discriminate; [congruence|eauto]. Qed.

Lemma sign_row_mean n x : length x = n -> independent (repeat fair_sign n) (fun s => dot s x) = 0.
Proof.
  intros H. rewrite (pd_ext _ (sign_row_pd n) _ (fun s => rsum (map2 (fun f a => f a) (map (fun x a => a * x) x) s)))
    by (intros; rewrite dot_sum_terms; auto).
  apply ind_sum_mean.
  - apply forall_repeat, sign_pd.
  - apply F2_repeat_l; [rewrite map_length; auto|]. apply Forall_map, Forall_forall. intros y _. unfold fair_sign. lra.
Qed.
Lemma sign_row_cov n x y : length x = n -> length y = n ->
  independent (repeat fair_sign n) (fun s => dot s x * dot s y) = dot x y.
Proof.
  intros Hx Hy.
  rewrite (pd_ext _ (sign_row_pd n) _ (fun s => rsum (map2 (fun f a => f a) (map (fun x a => a * x) x) s)
      * rsum (map2 (fun f a => f a) (map (fun x a => a * x) y) s)))
    by (intros; rewrite !dot_sum_terms; auto).
  unfold dot. apply ind_sum_cov.
  - apply forall_repeat, sign_pd.
  - apply F2_repeat_l; [rewrite map_length; auto|]. apply Forall_map, Forall_forall. intros z _. unfold fair_sign. lra.
  - apply F2_repeat_l; [rewrite map_length; auto|]. apply Forall_map, Forall_forall. intros z _. unfold fair_sign. lra.
  - rewrite repeat_length. apply map2_length_eq; auto.
  - intros i d f g H1 H2 H3. apply nth_error_repeat_in in H1; subst d.
    rewrite nth_error_map in H2, H3.
    destruct (nth_error x i) as [a|] eqn:E1; [|discriminate]. destruct (nth_error y i) as [b|] eqn:E2; [|discriminate].
    injection H2 as <-. injection H3 as <-.
    assert (i < length x)%nat by (apply nth_error_Some; congruence).
    rewrite (nth_map2 Rmult x y i 0 0) by lia.
    rewrite (nth_error_nth _ _ 0 E1), (nth_error_nth _ _ 0 E2). unfold fair_sign. lra.
Qed.

Lemma sign_rows_support b n f g : (forall t, shaped b n t -> f t = g t) -> sign_rows b n f = sign_rows b n g.
Proof.
  intros E. unfold sign_rows. apply (independent_support _ (fun r : row => length r = n)).
  - apply forall_repeat, sign_row_pd.
  - apply forall_repeat. intros f' g' E'. apply (independent_support _ (fun _ => True)).
    + apply forall_repeat, sign_pd.
    + apply forall_repeat. intros f2 g2 E2. apply (pd_ext _ sign_pd). auto.
    + intros t Ht _. apply E'. rewrite Ht, repeat_length; auto.
  - intros t Ht Hq. apply E. split; auto. rewrite Ht, repeat_length; auto.
Qed.

Lemma sign_moments l : pd_moments l tdot (sign_rows (batch l) (inner_width l)).
Proof.
  split; [apply sign_rows_pd|]. split; [intros f g E; apply sign_rows_support; auto|].
  set (b := batch l). set (n := inner_width l).
  assert (Hm : forall x, like l x -> Forall2 (fun (d : dist row) f => d f = 0) (repeat (independent (repeat fair_sign n)) b)
                   (map (fun x a => dot a x) x)).
  { intros x [Hx1 Hx2]. apply F2_repeat_l; [rewrite map_length; auto|].
    apply Forall_map. eapply Forall_impl; [|exact Hx2]. intros y Hy. apply (sign_row_mean n y Hy). }
  split.
  - intros x Hx. rewrite (pd_ext _ (sign_rows_pd b n) _ (fun s => rsum (map2 (fun f a => f a) (map (fun x a => dot a x) x) s)))
      by (intros; rewrite tdot_sum_terms; auto).
    apply ind_sum_mean; auto. apply forall_repeat, sign_row_pd.
  - intros x y Hx Hy.
    rewrite (pd_ext _ (sign_rows_pd b n) _ (fun s => rsum (map2 (fun f a => f a) (map (fun x a => dot a x) x) s)
        * rsum (map2 (fun f a => f a) (map (fun x a => dot a x) y) s)))
      by (intros; rewrite !tdot_sum_terms; auto).
    unfold tdot. apply ind_sum_cov; auto.
    + apply forall_repeat, sign_row_pd.
    + rewrite repeat_length. apply map2_length_eq; [apply Hx|apply Hy].
    + intros i d f g H1 H2 H3. apply nth_error_repeat_in in H1; subst d.
      rewrite nth_error_map in H2, H3.
      destruct (nth_error x i) as [p|] eqn:E1; [|discriminate]. destruct (nth_error y i) as [q|] eqn:E2; [|discriminate].
      injection H2 as <-. injection H3 as <-.
      assert (i < length x)%nat by (apply nth_error_Some; congruence).
      assert (i < length y)%nat by (apply nth_error_Some; congruence).
      rewrite (nth_map2 dot x y i [] []) by lia.
      rewrite (nth_error_nth _ _ [] E1), (nth_error_nth _ _ [] E2).
      apply sign_row_cov.
      * destruct Hx as [_ Hx]. rewrite Forall_forall in Hx. apply Hx. eapply nth_error_In; eauto.
      * destruct Hy as [_ Hy]. rewrite Forall_forall in Hy. apply Hy. eapply nth_error_In; eauto.
Qed.

(** From per-entry moments to inner products. *)
Lemma pd_rsum {A} (d : dist A) (l : list (A -> R)) : prob_dist d ->
  d (fun a => rsum (map (fun f => f a) l)) = rsum (map (fun f => d f) l).
Proof.
  intros H. induction l as [|f l IH]; simpl.
  - apply (pd_const d 0 H).
  - rewrite <- IH. apply (pd_add d H f (fun a => fold_right Rplus 0 (map (fun f => f a) l))).
Qed.
Lemma pd_sum_n {A} (d : dist A) n (f : nat -> A -> R) : prob_dist d ->
  d (fun a => sum_n n (fun i => f i a)) = sum_n n (fun i => d (f i)).
Proof.
  intros H. unfold sum_n.
  rewrite (pd_ext d H _ (fun a => rsum (map (fun g => g a) (map f (seq 0 n))))).
  - rewrite pd_rsum by auto. rewrite map_map. reflexivity.
  - intros a. rewrite map_map. reflexivity.
Qed.
Lemma tdot_entries b n x y : shaped b n x -> shaped b n y ->
  tdot x y = sum_n b (fun r => sum_n n (fun c => entry x r c * entry y r c)).
Proof.
  revert b y; induction x as [|p x IH]; intros b [|q y] Hx Hy.
  - apply shaped_nil in Hx; subst. rewrite tdot_nil_l, sum_n_0; auto.
  - apply shaped_nil in Hx; subst. apply shaped_cons in Hy as [? [? _]]; discriminate.
  - apply shaped_nil in Hy; subst. apply shaped_cons in Hx as [? [? _]]; discriminate.
  - apply shaped_cons in Hx as [b' [-> [Hp Hx]]]. apply shaped_cons in Hy as [b2 [E [Hq Hy]]].
    injection E as <-. rewrite tdot_cons, sum_n_S, (IH b' y Hx Hy). f_equal.
    unfold entry; simpl. apply dot_sum; auto.
Qed.

Lemma moments_of_entries l {A} (d : dist A) (g : A -> tensor) (Q : A -> Prop) (F : tensor -> tensor) :
  prob_dist d -> (forall f h, (forall a, Q a -> f a = h a) -> d f = d h) -> (forall a, Q a -> like l (g a)) ->
  (forall v, like l v -> like l (F v)) ->
  (forall r c, (r < batch l)%nat -> (c < inner_width l)%nat -> d (fun t => entry (g t) r c) = 0) ->
  (forall v r c, like l v -> (r < batch l)%nat -> (c < inner_width l)%nat ->
      d (fun t => entry (g t) r c * tdot (g t) v) = entry (F v) r c) ->
  pd_moments l (fun x y => tdot x (F y)) (fun f => d (fun t => f (g t))).
Proof.
  intros Hd HQ Hg HF H1 H2. split; [|split; [|split]].
  - split.
    + intros f h E. apply (pd_ext d Hd); auto.
    + intros f h. apply (pd_add d Hd (fun a => f (g a)) (fun a => h (g a))).
    + intros k f. apply (pd_scale d Hd k (fun a => f (g a))).
    + apply (pd_one d Hd).
  - intros f h E. apply HQ. intros a Ha. apply E, Hg, Ha.
  - intros x Hx.
    rewrite (HQ _ (fun t => sum_n (batch l) (fun r => sum_n (inner_width l) (fun c => entry x r c * entry (g t) r c)))).
    + rewrite (pd_sum_n d _ (fun r t => sum_n (inner_width l) (fun c => entry x r c * entry (g t) r c))) by auto.
      apply sum_n_zero. intros r Hr. rewrite (pd_sum_n d _ (fun c t => entry x r c * entry (g t) r c)) by auto.
      apply sum_n_zero. intros c Hc. rewrite (pd_scale d Hd (entry x r c) (fun t => entry (g t) r c)), H1 by auto. ring.
    + intros t Ht. rewrite tdot_comm. apply tdot_entries; auto. apply Hg; auto.
  - intros x y Hx Hy.
    rewrite (HQ _ (fun t => sum_n (batch l) (fun r => sum_n (inner_width l) (fun c => entry x r c * (entry (g t) r c * tdot (g t) y))))).
    + rewrite (pd_sum_n d _ (fun r t => sum_n (inner_width l) (fun c => entry x r c * (entry (g t) r c * tdot (g t) y)))) by auto.
      rewrite (tdot_entries (batch l) (inner_width l) x (F y)) by (auto; apply HF; auto).
      apply sum_n_ext. intros r Hr. rewrite (pd_sum_n d _ (fun c t => entry x r c * (entry (g t) r c * tdot (g t) y))) by auto.
      apply sum_n_ext. intros c Hc. rewrite (pd_scale d Hd (entry x r c) (fun t => entry (g t) r c * tdot (g t) y)), H2 by auto. ring.
    + intros t Ht. rewrite (tdot_comm (g t) x), (tdot_entries (batch l) (inner_width l) x (g t)) by (auto; apply Hg; auto).
      rewrite Rmult_comm, <- sum_n_scale. apply sum_n_ext. intros r Hr. rewrite <- sum_n_scale.
      apply sum_n_ext. intros c Hc. ring.
Qed.

(** The gradient is determined by its entries. *)
Lemma gradient_unique f z n g h : shaped (length z) n z -> shaped (length z) n g -> shaped (length z) n h ->
  is_gradient f z g -> is_gradient f z h -> g = h.
Proof.
  intros Hz Hg Hh G H. apply (nth_ext _ _ [] []); [destruct Hg, Hh; congruence|].
  intros r Hr. destruct Hg as [Lg Fg], Hh as [Lh Fh]. rewrite Lg in Hr.
  assert (L1 : length (nth r g []) = n) by (rewrite Forall_forall in Fg; apply Fg, nth_In; lia).
  assert (L2 : length (nth r h []) = n) by (rewrite Forall_forall in Fh; apply Fh, nth_In; lia).
  assert (L3 : length (nth r z []) = n) by (destruct Hz as [_ Fz]; rewrite Forall_forall in Fz; apply Fz, nth_In; lia).
  apply (nth_ext _ _ 0 0); [congruence|]. intros c Hc.
  exact (uniqueness_limite _ _ _ _ (G r c Hr ltac:(lia)) (H r c Hr ltac:(lia))).
Qed.

Lemma cat_grad_shaped n z t : shaped (length z) n z -> length t = length z -> shaped (length z) n (cat_grad z t).
Proof.
  intros [_ Hz]. unfold cat_grad. revert t; induction z as [|r z IH]; intros [|k t] Ht; try discriminate.
  - split; constructor.
  - inversion Hz; subst. rewrite map2_cons. apply shaped_S; [|apply IH; auto; simpl in Ht; lia].
    apply map2_length_eq; rewrite ?softmax_length, ?one_hot_length; auto.
Qed.
Lemma bern_grad_shaped n z t : shaped (length z) n z ->
  Forall2 (fun (r : row) (ks : list nat) => length ks = length r) z t -> shaped (length z) n (bern_grad z t).
Proof.
  intros [_ Hz] H. unfold bern_grad. induction H as [|r ks z t Hr H IH]; [split; auto|].
  inversion Hz; subst. rewrite map2_cons. apply shaped_S; auto.
  apply map2_length_eq; auto.
Qed.

Lemma fT_cat n z v : fT (Categorical n z) v = map2 cat_F (map softmax z) v.
Proof. reflexivity. Qed.
Lemma fT_bern n z v : fT (MultiBernoulli n z) v = map2 (map2 (fun p x => p * (1 - p) * x)) (map (map sigmoid) z) v.
Proof. reflexivity. Qed.

Lemma targets_cat_pd n z : (0 < n)%nat -> shaped (length z) n z ->
  Forall prob_dist (map (fun r => pick (softmax r)) z).
Proof.
  intros Hn [_ Hz]. apply Forall_map. eapply Forall_impl; [|exact Hz]. intros r Hr. apply softmax_pd.
  intros ->; simpl in Hr; lia.
Qed.
Lemma bern_row_pd (r : row) : prob_dist (independent (map (fun x => pick [1 - sigmoid x; sigmoid x]) r)).
Proof. apply independent_pd, Forall_map, Forall_forall. intros x _. apply bern_pd. Qed.
Lemma targets_bern_pd z : Forall prob_dist (map (fun r : row => independent (map (fun x => pick [1 - sigmoid x; sigmoid x]) r)) z).
Proof. apply Forall_map, Forall_forall. intros r _. apply bern_row_pd. Qed.

Lemma bern_support z f g :
  (forall t, Forall2 (fun (r : row) (ks : list nat) => length ks = length r) z t -> f t = g t) ->
  bernoulli_targets z f = bernoulli_targets z g.
Proof.
  unfold bernoulli_targets. revert f g. induction z as [|r z IH]; simpl; intros f g E; [apply E; constructor|].
  apply (independent_support _ (fun _ => True)).
  - apply Forall_map, Forall_forall. intros x _. apply bern_pd.
  - apply Forall_map, Forall_forall. intros x _ f' g' E'. apply (pd_ext _ (bern_pd x)). auto.
  - intros ks Hk _. apply IH. intros t Ht. apply E. constructor; auto. rewrite Hk, map_length; auto.
Qed.
Lemma cat_support n z f g : (0 < n)%nat -> shaped (length z) n z ->
  (forall t, length t = length z -> f t = g t) -> categorical_targets z f = categorical_targets z g.
Proof.
  intros Hn Hz E. unfold categorical_targets. assert (H := targets_cat_pd n z Hn Hz).
  apply (independent_support _ (fun _ => True)); auto.
  - apply Forall_map, Forall_forall. intros r Hr. intros f' g' E'. unfold pick. apply sum_n_ext. intros; rewrite E'; auto.
  - intros t Ht _. apply E. rewrite Ht, map_length; auto.
Qed.

Lemma sampled_moments l d : wf_loss l -> sampled_gradient l d -> moments l (fun x y => tdot x (fT l y)) d.
Proof.
  intros W H. destruct H as [n z g Hn Hg|n z g Hg|n m var g Hg]; simpl in W; [apply pd_moments_moments..|].
  - assert (Eg : forall t, length t = length z -> g t = cat_grad z t).
    { intros t Ht. destruct (Hg t Ht) as [G S].
      apply (gradient_unique (fun z => evaluate_categorical z t) z n); auto.
      - apply cat_grad_shaped; auto.
      - apply cat_gradient; auto. }
    apply (moments_of_entries (Categorical n z) _ g (fun t => length t = length z) (fT (Categorical n z))).
    + apply independent_pd, (targets_cat_pd n); auto.
    + intros f h E. apply (cat_support n); auto.
    + intros t Ht. apply Hg; auto.
    + intros v Hv. apply (fb_spec (Categorical n z)); auto. reflexivity.
    + intros r c Hr Hc. simpl in Hr, Hc.
      rewrite (cat_support n z _ (fun t => entry (cat_grad z t) r c)) by (auto; intros t Ht; rewrite Eg; auto).
      apply (cat_expect n z z r c); auto.
    + intros v r c Hv Hr Hc. simpl in Hr, Hc.
      rewrite (cat_support n z _ (fun t => entry (cat_grad z t) r c * tdot (cat_grad z t) v)) by (auto; intros t Ht; rewrite Eg; auto).
      rewrite fT_cat. apply (cat_expect n z v r c); auto.
  - assert (Eg : forall t, Forall2 (fun (r : row) (ks : list nat) => length ks = length r) z t -> g t = bern_grad z t).
    { intros t Ht. destruct (Hg t Ht) as [G S].
      apply (gradient_unique (fun z => evaluate_multi_bernoulli z t) z n); auto.
      - apply bern_grad_shaped; auto.
      - apply bern_gradient; auto. symmetry; eapply F2_length; eauto. }
    apply (moments_of_entries (MultiBernoulli n z) _ g
       (fun t => Forall2 (fun (r : row) (ks : list nat) => length ks = length r) z t) (fT (MultiBernoulli n z))).
    + apply independent_pd, targets_bern_pd.
    + intros f h E. apply bern_support; auto.
    + intros t Ht. apply Hg; auto.
    + intros v Hv. apply (fb_spec (MultiBernoulli n z)); auto. reflexivity.
    + intros r c Hr Hc. simpl in Hr, Hc.
      rewrite (bern_support z _ (fun t => entry (bern_grad z t) r c)) by (intros t Ht; rewrite Eg; auto).
      apply (bern_expect n z z r c); auto.
    + intros v r c Hv Hr Hc. simpl in Hr, Hc.
      rewrite (bern_support z _ (fun t => entry (bern_grad z t) r c * tdot (bern_grad z t) v)) by (intros t Ht; rewrite Eg; auto).
      rewrite fT_bern. apply (bern_expect n z v r c); auto.
  - destruct W as [Wm V]. intros x y Hx Hy. cbn [like batch inner_width] in *.
    apply (normal_mean_moments n m var g x y); auto.
    intros t Ht. destruct (Hg t Ht) as [G S].
    apply (gradient_unique (fun m => evaluate_normal_mean m var t) m n); auto.
    + apply (normal_grad_shaped (length m)); auto.
    + apply normal_gradient; auto; [destruct Ht as [Ht _]; congruence|].
      apply (paired_rows (length m) n); auto.
Qed.

(* ------------------------------------------------------------------------ *)
(** * Unbiased estimates over a whole computer *)


(** The gradients obtained from one random tensor per loss: linear in it. *)
Lemma estimate_moments c (K : loss -> tensor -> tensor -> R) (pre : loss -> tensor -> tensor) ds (G : list tensor -> tensor) :
  wf_computer c ->
  Forall2 (fun lc d => moments (fst lc) (K (fst lc)) d) (c_losses c) ds ->
  (forall l x, wf_loss l -> one_input l -> like l x -> like l (pre l x)) ->
  (forall ss u, Forall2 (fun lc s => like (fst lc) s) (c_losses c) ss ->
     tdot (G ss) u = rsum (map2 (fun f s => f s)
        (map2 (fun lc j s => sqrt (snd lc) * tdot s (pre (fst lc) (push j u))) (c_losses c) (c_jac c)) ss)) ->
  forall u v,
    independent ds (fun ss => tdot (G ss) u) = 0 /\
    independent ds (fun ss => tdot (G ss) u * tdot (G ss) v) =
    rsum (map2 (fun lc j => snd lc * K (fst lc) (pre (fst lc) (push j u)) (pre (fst lc) (push j v))) (c_losses c) (c_jac c)).
Proof.
  intros W HM HP HG u v.
  set (items := zip (zip (c_losses c) (c_jac c)) ds).
  set (F := fun (w : tensor) (i : ((loss * R) * list (list tensor)) * dist tensor) (s : tensor) =>
    sqrt (snd (fst (fst i))) * tdot s (pre (fst (fst (fst i))) (push (snd (fst i)) w))).
  set (C := fun i : ((loss * R) * list (list tensor)) * dist tensor =>
    snd (fst (fst i)) * K (fst (fst (fst i))) (pre (fst (fst (fst i))) (push (snd (fst i)) u))
                          (pre (fst (fst (fst i))) (push (snd (fst i)) v))).
  assert (HI : Forall (fun i => quad (like (fst (fst (fst i)))) (snd i) (F u i) (F v i) (C i)) items /\
               map snd items = ds /\ map (fun i => fst (fst i)) items = c_losses c /\
               (forall w ss, map2 (fun f s => f s) (map2 (fun lc j s => sqrt (snd lc) * tdot s (pre (fst lc) (push j w))) (c_losses c) (c_jac c)) ss
                  = map2 (F w) items ss) /\
               map C items = map2 (fun lc j => snd lc * K (fst lc) (pre (fst lc) (push j u)) (pre (fst lc) (push j v))) (c_losses c) (c_jac c)).
  { unfold items. destruct W as [W1 W2]. clear - HM W1 W2 HP. revert ds HM.
    induction W2 as [|[l co] j ls js Hj H IH]; intros ds HM; inversion HM as [|? d ? ds' HMd HMs]; subst.
    - cbn. split; [constructor|]. repeat split.
    - inversion W1 as [|? ? Wx Wxs]; subst. destruct (IH Wxs ds' HMs) as (I1 & I2 & I3 & I4 & I5).
      cbn [zip map]. cbn [fst snd] in *. destruct Wx as [Wl [N P]].
      split; [|split; [|split; [|split]]].
      + constructor; [|exact I1]. unfold F, C. cbn [fst snd].
        replace (co * K l (pre l (push j u)) (pre l (push j v)))
          with (sqrt co * sqrt co * K l (pre l (push j u)) (pre l (push j v))) by (rewrite sqrt_sqrt by exact P; reflexivity).
        apply quad_scale, HMd; apply HP; auto; eapply push_shaped; eauto.
      + f_equal. exact I2.
      + f_equal. exact I3.
      + intros w [|s ss]; [reflexivity|]. rewrite !map2_cons, I4. reflexivity.
      + rewrite map2_cons, I5. reflexivity. }
  destruct HI as (I1 & I2 & I3 & I4 & I5). rewrite <- I5, <- I2.
  pose proof (ind_quad (fun i => like (fst (fst (fst i)))) snd (F u) (F v) C items I1) as HQ.
  assert (HL : forall ss, Forall2 (fun i => like (fst (fst (fst i)))) items ss -> Forall2 (fun lc s => like (fst lc) s) (c_losses c) ss).
  { intros ss H. rewrite <- I3. clear - H. induction H; constructor; auto. }
  split; [eapply quad_mean|eapply quad_cov]; try exact HQ; intros ss Hs.
  - rewrite HG by auto. rewrite I4. reflexivity.
  - rewrite !HG by auto. rewrite !I4. reflexivity.
Qed.

Lemma sum_losses_terms c (h : loss * R -> tensor -> tensor -> R) (f : loss * R -> tensor -> tensor) ss js u :
  (forall lc s j, tdot (f lc s) (push j u) = h lc s (push j u)) ->
  length js = length (c_losses c) -> 
  sum_losses (map2 f (c_losses c) ss) (map (fun j => push j u) js) =
  rsum (map2 (fun g s => g s) (map2 (fun lc j s => h lc s (push j u)) (c_losses c) js) ss).
Proof.
  intros H. generalize (c_losses c). intros ls; revert ss js.
  induction ls as [|lc ls IH]; intros [|s ss] [|j js] HL; try discriminate; auto.
  rewrite map2_cons. cbn [map]. rewrite !map2_cons. cbn [sum_losses rsum fold_right].
  simpl in HL. rewrite IH by lia. rewrite H. reflexivity.
Qed.

Theorem curvature_prop_unbiased k c : wf_computer c ->
  exists G,
    (forall ss, Forall2 (fun lc s => like (fst lc) s) (c_losses c) ss ->
       grads_curvature_prop k c (map V1 ss) = Ok (G ss)) /\
    forall u v, wrt_like (c_wrt c) u -> wrt_like (c_wrt c) v ->
      exists a, multiply_curv k c v = Ok a /\
        random_signs c (fun ss => tdot (G ss) u) = 0 /\
        random_signs c (fun ss => tdot (G ss) u * tdot (G ss) v) = tdot u a.
Proof.
  intros W. exists (fun ss => prod_of c (outer c ss)). split.
  - intros ss Hs. apply factor_ok; auto.
  - intros u v Hu Hv. exists (prod_of c (weighted c v)). split; [apply curv_ok; auto|].
    rewrite (curv_form c W).
    destruct (estimate_moments c (fun _ => tdot) (fun l x => btT l x)
       (map (fun lc => sign_rows (batch (fst lc)) (inner_width (fst lc))) (c_losses c))
       (fun ss => prod_of c (outer c ss)) W) with (u := u) (v := v) as [M1 M2].
    + clear. induction (c_losses c); constructor; auto. apply pd_moments_moments, sign_moments.
    + intros l x Wl Nl Hx. apply (fb_spec l Wl Nl x Hx).
    + intros ss w Hs. rewrite (factor_adjoint_all c W) by auto. unfold inner.
      pose proof (jac_len c W) as HL. clear - HL Hs. revert HL Hs. generalize (c_losses c) (c_jac c).
      intros ls js; revert js ss; induction ls as [|lc ls IH]; intros [|j js] ss HL Hs; try discriminate; inversion Hs; subst; auto.
      cbn [map]. rewrite !map2_cons. cbn [sum_losses rsum fold_right]. simpl in HL. rewrite IH by (auto; lia).
      rewrite tdot_scale_r. reflexivity.
    + split; [exact M1|]. unfold random_signs. rewrite M2. f_equal.
      destruct W as [W1 W2]. clear - W1 W2. induction W2 as [|[l co] j ls js Hj H IH]; auto.
      inversion W1; subst. rewrite !map2_cons, IH by auto. f_equal. simpl.
      destruct H2 as [Wl [N P]]. simpl in *.
      rewrite (tdot_comm (push j u)), (f_gram l Wl N) by (eapply push_shaped; eauto).
      rewrite (tdot_comm (btT l (push j u))). reflexivity.
Qed.

Theorem gradients_unbiased c ds : wf_computer c ->
  Forall2 (fun lc d => sampled_gradient (fst lc) d) (c_losses c) ds ->
  exists G,
    (forall ss, Forall2 (fun lc s => like (fst lc) s) (c_losses c) ss ->
       grads_gradients c (map V1 ss) = Ok (G ss)) /\
    forall u v, wrt_like (c_wrt c) u -> wrt_like (c_wrt c) v ->
      exists a, multiply_curv Fisher c v = Ok a /\
        independent ds (fun ss => tdot (G ss) u) = 0 /\
        independent ds (fun ss => tdot (G ss) u * tdot (G ss) v) = tdot u a.
Proof.
  intros W HD.
  set (sc := fun ss => map2 (fun lc s => tscale (sqrt (snd lc)) s) (c_losses c) ss).
  exists (fun ss => prod_of c (sc ss)). split.
  - intros ss Hs. unfold grads_gradients.
    replace (map2 (fun lc v => lscale (sqrt (snd lc)) v) (c_losses c) (map V1 ss)) with (map V1 (sc ss)).
    + apply jact_ok. unfold sc. rewrite (map2_length_eq _ _ _ (length (c_jac c))); auto.
      * symmetry; apply jac_len; auto.
      * rewrite <- (F2_length _ _ _ Hs). symmetry; apply jac_len; auto.
    + unfold sc. clear. revert ss; induction (c_losses c) as [|lc ls IH]; intros [|s ss]; auto.
      cbn [map]. rewrite !map2_cons. cbn [map]. rewrite IH. reflexivity.
  - intros u v Hu Hv. exists (prod_of c (weighted c v)). split; [apply curv_ok; auto|].
    rewrite (curv_form c W).
    destruct (estimate_moments c (fun l x y => tdot x (fT l y)) (fun l x => x) ds
       (fun ss => prod_of c (sc ss)) W) with (u := u) (v := v) as [M1 M2]; auto.
    + destruct W as [W1 _]. clear - W1 HD. induction HD as [|lc d ls ds H _ IH]; constructor; inversion W1; subst; auto.
      apply sampled_moments; auto. apply H2.
    + intros ss w Hs. rewrite (prod_dot c W). unfold sc.
      apply (sum_losses_terms c (fun lc s x => sqrt (snd lc) * tdot s x)).
      * intros lc s j. apply tdot_scale_l.
      * apply jac_len; auto.
Qed.

(* ------------------------------------------------------------------------ *)
(** * Exact mode *)

Lemma btT_cat n z t : btT (Categorical n z) t = map2 cat_BT (map softmax z) t.
Proof. reflexivity. Qed.

Definition zero_row (r : row) : Prop := forall i, nth i r 0 = 0.
Lemma zero_row_dot_r p x : zero_row x -> rsum (map2 Rmult p x) = 0.
Proof.
  revert p; induction x as [|a x IH]; intros [|b p] H; auto.
  rewrite map2_cons. cbn [rsum fold_right]. change (b * a + rsum (map2 Rmult p x) = 0).
  rewrite IH by (intros i; apply (H (S i))). pose proof (H O) as H0; simpl in H0. subst; ring.
Qed.
Lemma nth_map2_zero {A} (f : A -> R -> R) p x i : (forall a, f a 0 = 0) -> zero_row x -> nth i (map2 f p x) 0 = 0.
Proof.
  intros Hf H. revert p i H; induction x as [|a x IH]; intros [|b p] i H; try (destruct i; reflexivity).
  rewrite map2_cons. destruct i; simpl.
  - pose proof (H O) as H0; simpl in H0; subst; auto.
  - apply IH. intros k; apply (H (S k)).
Qed.
Lemma nth_sub_zero x y i : (forall i, nth i x 0 = 0) -> (forall i, nth i y 0 = 0) -> nth i (map2 Rminus x y) 0 = 0.
Proof.
  revert y i; induction x as [|a x IH]; intros [|b y] i H1 H2; try (destruct i; reflexivity).
  rewrite map2_cons. destruct i; simpl.
  - pose proof (H1 O); pose proof (H2 O); simpl in *; subst; ring.
  - apply IH; intros k; [apply (H1 (S k))|apply (H2 (S k))].
Qed.

Lemma nth_map2_rows {A} (f : A -> row -> row) P t r a0 : (r < length P)%nat -> (r < length t)%nat ->
  nth r (map2 f P t) [] = f (nth r P a0) (nth r t []).
Proof. intros. apply nth_map2; auto. Qed.

Lemma btT_zero_row l t r : wf_loss l -> one_input l -> like l t -> zero_row (nth r t []) -> zero_row (nth r (btT l t) []).
Proof.
  intros W N Ht Hz i.
  destruct (Nat.lt_ge_cases r (batch l)) as [Hr|Hr].
  2:{ destruct (fb_spec l W N t Ht) as (_ & [L _] & _). rewrite (nth_overflow (btT l t)) by lia. destruct i; auto. }
  destruct l as [n z|n z|n m var|n m s]; [| | |discriminate]; simpl in W, Hr; assert (Lt : length t = _) by apply Ht; simpl in Lt.
  - rewrite btT_cat, (nth_map2_rows cat_BT _ _ r []) by (rewrite ?map_length; lia).
    unfold cat_BT. cbv zeta. apply nth_sub_zero.
    + intros k. apply nth_map2_zero; auto. intros; ring.
    + intros k. rewrite zero_row_dot_r by auto. rewrite nth_rscale. ring.
  - change (btT (MultiBernoulli n z) t) with (map2 (map2 (fun p x => sqrt (p * (1 - p)) * x)) (map (map sigmoid) z) t).
    rewrite (nth_map2_rows _ _ _ r []) by (rewrite ?map_length; lia).
    apply nth_map2_zero; auto. intros; ring.
  - change (btT (NormalMean n m var) t) with (tscale (/ sqrt var) t).
    unfold tscale. change (@nil R) with (rscale (/ sqrt var) []). rewrite map_nth. rewrite nth_rscale, Hz. ring.
Qed.

(** The replicated one-hot picks out the sum of a column. *)
Lemma tdot_replicated b n i x : shaped b n x -> (i < n)%nat ->
  tdot (replicated_one_hot b n i) x = sum_n b (fun r => entry x r i).
Proof.
  intros Hx Hi. revert b Hx; induction x as [|p x IH]; intros b Hx.
  - apply shaped_nil in Hx; subst. reflexivity.
  - apply shaped_cons in Hx as [b' [-> [Hp Hx]]]. unfold replicated_one_hot. simpl repeat.
    rewrite tdot_cons. fold (replicated_one_hot b' n i). rewrite IH, dot_one_hot by auto.
    rewrite sum_n_S. reflexivity.
Qed.
Lemma replicated_shaped b n i : shaped b n (replicated_one_hot b n i).
Proof. split; [apply repeat_length|]. apply forall_repeat. apply one_hot_length. Qed.

Lemma sum_single n r f : (r < n)%nat -> (forall k, (k < n)%nat -> k <> r -> f k = 0) -> sum_n n f = f r.
Proof.
  intros Hr H. rewrite (sum_n_ext n f (fun k => delta r k * f k)); [apply sum_n_delta; auto|].
  intros k Hk. destruct (Nat.eq_dec k r).
  - subst. rewrite delta_refl; ring.
  - rewrite delta_neq by auto. rewrite H by auto. ring.
Qed.

Lemma exact_one_ok wrt l co j i : wf_loss l -> one_input l -> 0 <= co -> jac_like wrt l j -> (i < inner_width l)%nat ->
  exists g, exact_one wrt (l, co) [j] i = Ok g /\
    forall u, tdot g u = sqrt co * sum_n (batch l) (fun r => entry (btT l (push j u)) r i).
Proof.
  intros W N P Hj Hi. unfold exact_one. simpl fst; simpl snd. rewrite (one_hot_is_column l i W Hi).
  assert (Hs : like l (replicated_one_hot (batch l) (inner_width l) i)) by apply replicated_shaped.
  destruct (b_spec l W N _ Hs) as [E S]. rewrite E. cbn [bind]. simpl length. rewrite Nat.eqb_refl.
  eexists; split; [reflexivity|]. intros u.
  destruct (grad_all_spec wrt [j] [tscale (sqrt co) (bT l (replicated_one_hot (batch l) (inner_width l) i))] (zeros wrt)) as [_ G].
  - constructor; auto. destruct Hj as [_ Hj]. eapply Forall_impl; [|exact Hj]. simpl; intuition.
  - apply zeros_shape.
  - rewrite G, zeros_tdot. cbn [map sum_losses]. rewrite tdot_scale_l.
    assert (Hp : like l (push j u)) by exact (push_shaped (mkComp [] wrt []) l j u Hj).
    rewrite (b_adj l W N) by auto. rewrite (tdot_replicated (batch l) (inner_width l) i) by (auto; apply (fb_spec l W N _ Hp)). ring.
Qed.

Lemma mapM_exists {A B} (f : A -> res B) (P : A -> B -> Prop) l :
  (forall a, In a l -> exists b, f a = Ok b /\ P a b) -> exists bs, mapM f l = Ok bs /\ Forall2 P l bs.
Proof.
  induction l as [|a l IH]; intros H; simpl; [eauto|].
  destruct (H a (or_introl eq_refl)) as [b [E HP]]. rewrite E. cbn [bind].
  destruct IH as [bs [E2 H2]]; [intros; apply H; right; auto|]. rewrite E2. simpl. eauto.
Qed.

Definition form (u v : tensor) (gs : list tensor) : R := rsum (map (fun g => tdot g u * tdot g v) gs).
Lemma form_app u v a b : form u v (a ++ b) = form u v a + form u v b.
Proof. unfold form. rewrite map_app, rsum_app. auto. Qed.

Lemma exact_loss_form c r u v l co j : jac_like (c_wrt c) l j -> wf_loss l -> one_input l -> 0 <= co ->
  (forall r' g, r' <> r -> In g (nth r' j []) -> tdot g u = 0) ->
  (forall r' g, r' <> r -> In g (nth r' j []) -> tdot g v = 0) ->
  exists gs, mapM (exact_one (c_wrt c) (l, co) [j]) (seq 0 (inner_width l)) = Ok gs /\
    length gs = inner_width l /\
    form u v gs = co * tdot (push j u) (fT l (push j v)).
Proof.
  intros Hj W N P Zu Zv.
  destruct (mapM_exists (exact_one (c_wrt c) (l, co) [j])
     (fun i g => forall u, tdot g u = sqrt co * sum_n (batch l) (fun r => entry (btT l (push j u)) r i)) (seq 0 (inner_width l))) as [gs [E H]].
  { intros i Hi. apply in_seq in Hi. apply exact_one_ok; auto. lia. }
  exists gs. split; auto. split; [rewrite <- (F2_length _ _ _ H); apply seq_length|].
  assert (HR : forall w, (forall r' g, r' <> r -> In g (nth r' j []) -> tdot g w = 0) -> forall r', r' <> r ->
      zero_row (nth r' (btT l (push j w)) [])).
  { intros w Zw r' Hr'. apply btT_zero_row; auto; [eapply push_shaped; eauto|].
    intros i. unfold push. change (@nil R) with (map (fun g => tdot g w) []). rewrite map_nth.
    destruct (Nat.lt_ge_cases i (length (nth r' j []))).
    - rewrite (nth_map_gen (fun g => tdot g w) _ i []) by auto. apply (Zw r'); auto. apply nth_In; auto.
    - apply nth_overflow. rewrite map_length; auto. }
  assert (F : form u v gs = sum_n (inner_width l) (fun i =>
     co * (sum_n (batch l) (fun r => entry (btT l (push j u)) r i) * sum_n (batch l) (fun r => entry (btT l (push j v)) r i)))).
  { unfold form, sum_n at 1. clear - H P. induction H as [|i g is gs Hg H IH]; auto.
    cbn [map rsum fold_right]. unfold rsum in IH. rewrite IH, !Hg. f_equal. rewrite <- (sqrt_sqrt co P) at 3. ring. }
  rewrite F, sum_n_scale. f_equal.
  assert (Hpu : like l (push j u)) by (eapply push_shaped; eauto).
  assert (Hpv : like l (push j v)) by (eapply push_shaped; eauto).
  rewrite (tdot_comm (push j u)), (f_gram l W N), (tdot_comm (btT l (push j v))) by auto.
  rewrite (tdot_entries (batch l) (inner_width l)); [|apply (fb_spec l W N _ Hpu)|apply (fb_spec l W N _ Hpv)].
  destruct (Nat.lt_ge_cases r (batch l)) as [Hr|Hr].
  - rewrite (sum_single (batch l) r) by (auto; intros k Hk Hne; apply sum_n_zero; intros i Hi; unfold entry; rewrite (HR u Zu k Hne i); ring).
    apply sum_n_ext. intros i Hi.
    rewrite (sum_single (batch l) r) by (auto; intros k Hk Hne; apply (HR u Zu k Hne i)).
    rewrite (sum_single (batch l) r) by (auto; intros k Hk Hne; apply (HR v Zv k Hne i)). reflexivity.
  - rewrite (sum_n_zero (batch l)) by (intros k Hk; apply sum_n_zero; intros i Hi; unfold entry; rewrite (HR u Zu k ltac:(lia) i); ring).
    apply sum_n_zero. intros i Hi. rewrite (sum_n_zero (batch l)); [ring|].
    intros k Hk. apply (HR u Zu k); lia.
Qed.

Theorem exact_is_fisher c r u v : wf_computer c -> meets_row c r u -> meets_row c r v ->
  exists gs a, grads_exact Fisher (c_wrt c) (per_loss c) = Ok gs /\
    length gs = list_sum (map (fun lc => inner_width (fst lc)) (c_losses c)) /\
    multiply_curv Fisher c v = Ok a /\
    rsum (map (fun g => tdot g u * tdot g v) gs) = tdot u a.
Proof.
  intros W Mu Mv.
  assert (HH : forall ls js,
     Forall (fun lc => wf_loss (fst lc) /\ one_input (fst lc) /\ 0 <= snd lc) ls ->
     Forall2 (fun lc j => jac_like (c_wrt c) (fst lc) j) ls js -> incl js (c_jac c) ->
     exists gss, mapM (fun p => mapM (exact_one (c_wrt c) (fst p) (snd p)) (seq 0 (inner_width (fst (fst p))))) (zip ls (map (fun j => [j]) js)) = Ok gss /\
     length (concat gss) = list_sum (map (fun lc => inner_width (fst lc)) ls) /\
     form u v (concat gss) = rsum (map2 (fun lc j => snd lc * tdot (push j u) (fT (fst lc) (push j v))) ls js)).
  { intros ls js W1 W2. induction W2 as [|[l co] j ls js Hj H IH]; intros HI.
    - exists []. repeat split; reflexivity.
    - inversion W1; subst. destruct H2 as [Wl [Nl P]]. simpl in *.
      destruct (exact_loss_form c r u v l co j) as [gs [E [L F]]]; auto.
      { intros r' g. apply Mu. apply HI; left; auto. }
      { intros r' g. apply Mv. apply HI; left; auto. }
      destruct IH as [gss [E2 [L2 F2]]]; auto. { intros x Hx; apply HI; right; auto. }
      exists (gs :: gss). rewrite E. cbn [bind]. rewrite E2. cbn [bind concat]. split; auto. split.
      + rewrite app_length. lia.
      + rewrite form_app, F, F2. reflexivity. }
  destruct (HH (c_losses c) (c_jac c)) as [gss [E [L F]]]; try apply W; try apply incl_refl.
  exists (concat gss), (prod_of c (weighted c v)). split.
  - unfold grads_exact, per_loss. rewrite E. reflexivity.
  - split; auto. split; [apply curv_ok; auto|]. rewrite (curv_form c W). exact F.
Qed.

Lemma modes_raise :
  (forall wrt p ls, grads_exact GGN wrt (p :: ls) = Raise AttributeError) /\
  (forall n mean variance coeff wrt j1 j2 us,
     grads_curvature_prop Fisher (mkComp [(NormalMeanVariance n mean variance, coeff)] wrt [j1; j2]) [V1 us]
     = Raise AttributeError) /\
  (forall n mean variance coeff wrt jac, (0 < n)%nat ->
     grads_exact Fisher wrt [((NormalMeanVariance n mean variance, coeff), jac)] = Raise AttributeError).
Proof.
  split; [reflexivity|]. split; [reflexivity|].
  intros [|n] mean variance coeff wrt jac Hn; [lia|].
  unfold grads_exact. cbn [mapM fst snd inner_width]. simpl Nat.mul. cbn [seq mapM]. unfold exact_one at 1. cbn [fst snd].
  cbn [multiply_fisher_factor_replicated_one_hot]. 
  destruct (Nat.ltb_spec 0 (S n)); [|lia]. rewrite column_ok by lia. cbn [bind].
  rewrite insert_ok by (try apply slices_len; lia). reflexivity.
Qed.
