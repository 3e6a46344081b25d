(** Gradients and Hessians of the losses, and expectations over model targets. *)
From Coq Require Import List Arith Bool Reals Lra Lia.
From Verif.Base Require Import Py ListFacts.
From Verif.Curv Require Import Model Spec VecProofs LossProofs.
Import ListNotations.
Open Scope list_scope.
Open Scope R_scope.

(* ------------------------------------------------------------------------ *)
(** * Updating one entry *)

Lemma set_nth_length {A} i (x : A) l : length (set_nth i x l) = length l.
Proof. revert i; induction l; intros [|i]; simpl; auto. Qed.
Lemma nth_set_nth_eq {A} i (x d : A) l : (i < length l)%nat -> nth i (set_nth i x l) d = x.
Proof. revert i; induction l; intros [|i]; simpl; intros; try lia; auto. apply IHl; lia. Qed.
Lemma nth_set_nth_neq {A} i j (x d : A) l : i <> j -> nth j (set_nth i x l) d = nth j l d.
Proof.
  revert i j; induction l; intros [|i] [|j] H; simpl; auto; try lia.
Qed.
Lemma rsum_map2_set {A B} (f : A -> B -> R) l m i x da db : (i < length l)%nat -> (i < length m)%nat ->
  rsum (map2 f (set_nth i x l) m) = rsum (map2 f l m) - f (nth i l da) (nth i m db) + f x (nth i m db).
Proof.
  revert i m; induction l as [|a l IH]; intros [|i] [|b m]; simpl length; intros; try lia.
  - simpl set_nth. rewrite !map2_cons. simpl. ring.
  - simpl set_nth. rewrite !map2_cons. cbn [rsum fold_right nth].
    specialize (IH i m ltac:(lia) ltac:(lia)). unfold rsum in IH. rewrite IH. unfold rsum. ring.
Qed.
Lemma rsum_map_set {A} (f : A -> R) l i x d : (i < length l)%nat ->
  rsum (map f (set_nth i x l)) = rsum (map f l) - f (nth i l d) + f x.
Proof.
  revert i; induction l as [|a l IH]; intros [|i]; simpl; intros; try lia; [ring|].
  specialize (IH i ltac:(lia)). unfold rsum in *. rewrite IH. ring.
Qed.

Lemma dlim_ext f g x d : (forall y, f y = g y) -> derivable_pt_lim f x d -> derivable_pt_lim g x d.
Proof.
  intros E H eps He. destruct (H eps He) as [de Hd]. exists de. intros h H1 H2.
  rewrite <- !E. auto.
Qed.
Lemma dlim_val f x d d' : d = d' -> derivable_pt_lim f x d -> derivable_pt_lim f x d'.
Proof. intros ->; auto. Qed.

(** The derivative of x |-> C - (d x + k) + ln (B + exp x). *)
Lemma dlim_log_sum_exp C d B x : 0 < B + exp x ->
  derivable_pt_lim (fun x => C - d * x + ln (B + exp x)) x (- d + exp x / (B + exp x)).
Proof.
  intros H.
  apply (dlim_ext (plus_fct (plus_fct (fct_cte C) (mult_real_fct (- d) id)) (comp ln (plus_fct (fct_cte B) exp)))).
  - intros y. unfold plus_fct, fct_cte, mult_real_fct, id, comp. ring.
  - apply (dlim_val _ _ (0 + - d * 1 + / (B + exp x) * (0 + exp x))).
    + field. lra.
    + apply derivable_pt_lim_plus; [apply derivable_pt_lim_plus|].
      * apply derivable_pt_lim_const.
      * apply derivable_pt_lim_scal, derivable_pt_lim_id.
      * apply derivable_pt_lim_comp.
        -- apply derivable_pt_lim_plus; [apply derivable_pt_lim_const|apply derivable_pt_lim_exp].
        -- apply derivable_pt_lim_ln. auto.
Qed.

Lemma nth_one_hot n k c : (c < n)%nat -> nth c (one_hot n k) 0 = delta k c.
Proof.
  intros H. unfold one_hot. rewrite (nth_indep _ 0 (delta k 0)) by (rewrite map_length, seq_length; auto).
  rewrite (map_nth (fun j => delta k j) (seq 0 n) O c). rewrite seq_nth by auto. reflexivity.
Qed.

(** Categorical: the gradient of the loss is softmax minus the one-hot target. *)
Definition cat_grad (z : tensor) (t : list nat) : tensor :=
  map2 (fun r k => map2 Rminus (softmax r) (one_hot (length r) k)) z t.

Lemma cat_log_prob_set r c x k : (c < length r)%nat ->
  - cat_log_prob (set_nth c x r) k =
  - (nth k r 0 - delta k c * nth c r 0) - delta k c * x + ln (rsum (map exp r) - exp (nth c r 0) + exp x).
Proof.
  intros Hc. unfold cat_log_prob. rewrite (rsum_map_set exp r c x 0) by auto.
  destruct (Nat.eq_dec k c).
  - subst. rewrite nth_set_nth_eq, delta_refl by auto. ring.
  - rewrite nth_set_nth_neq, delta_neq by auto. ring.
Qed.

Lemma nth_softmax r c : (c < length r)%nat -> nth c (softmax r) 0 = exp (nth c r 0) / rsum (map exp r).
Proof.
  intros H. unfold softmax. cbv zeta.
  rewrite (nth_indep _ 0 (exp 0 / rsum (map exp r))) by (rewrite map_length; auto).
  rewrite (map_nth (fun x => exp x / rsum (map exp r)) r 0). reflexivity.
Qed.

Lemma cat_gradient z t : length t = length z ->
  is_gradient (fun z => evaluate_categorical z t) z (cat_grad z t).
Proof.
  intros Ht r c Hr Hc. unfold evaluate_categorical, set_entry, entry.
  set (row := nth r z []) in *. set (k := nth r t O).
  assert (Hrow : row <> []) by (intros E; rewrite E in Hc; simpl in Hc; lia).
  pose proof (rsum_exp_pos row Hrow) as HS. set (S := rsum (map exp row)) in *.
  apply (dlim_ext (fun x => (- (rsum (map2 cat_log_prob z t) - cat_log_prob row k) - (nth k row 0 - delta k c * nth c row 0))
                      - delta k c * x + ln (S - exp (nth c row 0) + exp x))).
  - intros x. rewrite (rsum_map2_set cat_log_prob z t r (set_nth c x row) [] O) by lia.
    fold row k. pose proof (cat_log_prob_set row c x k Hc) as E. fold S in E. lra.
  - apply (dlim_val _ _ (- delta k c + exp (nth c row 0) / (S - exp (nth c row 0) + exp (nth c row 0)))).
    + unfold cat_grad. rewrite (nth_map2 _ z t r [] O) by lia. fold row k.
      rewrite (nth_map2 Rminus _ _ c 0 0) by (rewrite ?softmax_length, ?one_hot_length; auto).
      rewrite nth_one_hot by auto. rewrite nth_softmax by auto. fold S. field. lra.
    + apply dlim_log_sum_exp. lra.
Qed.

Lemma cat_prob r k : (k < length r)%nat -> exp (cat_log_prob r k) = nth k (softmax r) 0.
Proof.
  intros H. assert (Hrow : r <> []) by (intros ->; simpl in H; lia).
  pose proof (rsum_exp_pos r Hrow). rewrite nth_softmax by auto. unfold cat_log_prob, Rminus.
  rewrite exp_plus, exp_Ropp, exp_ln by auto. reflexivity.
Qed.

(** Bernoulli. *)
Definition bern_grad (z : tensor) (t : list (list nat)) : tensor :=
  map2 (map2 (fun x k => sigmoid x - INR k)) z t.

Lemma sigmoid_alt x : sigmoid x = exp x / (1 + exp x).
Proof. unfold sigmoid. rewrite exp_Ropp. pose proof (exp_pos x). field. lra. Qed.

Lemma bern_gradient z t : length t = length z ->
  Forall2 (fun (r : row) (ks : list nat) => length ks = length r) z t ->
  is_gradient (fun z => evaluate_multi_bernoulli z t) z (bern_grad z t).
Proof.
  intros Ht Hf r c Hr Hc. unfold evaluate_multi_bernoulli, set_entry, entry.
  set (row := nth r z []) in *. set (ks := nth r t []).
  assert (Hks : length ks = length row).
  { unfold row, ks. clear - Hf Hr. revert r Hr; induction Hf; intros [|r] Hr; simpl in *; try lia; auto.
    apply IHHf; lia. }
  set (k := nth c ks O). set (f := fun (r : list R) ks => rsum (map2 bern_log_prob r ks)).
  apply (dlim_ext (fun x => (- (rsum (map2 f z t) - bern_log_prob (nth c row 0) k)) - INR k * x + ln (1 + exp x))).
  - intros x. rewrite (rsum_map2_set f z t r (set_nth c x row) [] []) by lia.
    fold row ks.
    assert (E : f (set_nth c x row) ks = f row ks - bern_log_prob (nth c row 0) k + bern_log_prob x k).
    { unfold f. rewrite (rsum_map2_set bern_log_prob row ks c x 0 O) by lia. reflexivity. }
    change (bern_log_prob x k) with (INR k * x - ln (1 + exp x)) in E.
    match goal with |- _ = - (?A - ?B + ?D) => change B with (f row ks); change D with (f (set_nth c x row) ks); change A with (rsum (map2 f z t)) end.
    lra.
  - apply (dlim_val _ _ (- INR k + exp (nth c row 0) / (1 + exp (nth c row 0)))).
    + unfold bern_grad. rewrite (nth_map2 _ z t r [] []) by lia. fold row ks.
      rewrite (nth_map2 _ row ks c 0 O) by lia. rewrite sigmoid_alt. fold k. ring.
    + apply dlim_log_sum_exp. pose proof (exp_pos (nth c row 0)). lra.
Qed.

Lemma bern_prob x : exp (bern_log_prob x 1) = sigmoid x /\ exp (bern_log_prob x 0) = 1 - sigmoid x.
Proof.
  unfold bern_log_prob. pose proof (exp_pos x). rewrite sigmoid_alt. unfold Rminus.
  rewrite !exp_plus, !exp_Ropp, !exp_ln by lra. simpl. rewrite Rmult_1_l, Rmult_0_l, exp_0.
  split; field; lra.
Qed.

(** Normal mean. *)
Definition normal_grad (var : R) (m t : tensor) : tensor := map2 (map2 (fun m t => (m - t) / var)) m t.

Lemma normal_gradient var m t : 0 < var -> length t = length m ->
  Forall2 (fun (r ts : row) => length ts = length r) m t ->
  is_gradient (fun m => evaluate_normal_mean m var t) m (normal_grad var m t).
Proof.
  intros Hv Ht Hf r c Hr Hc. unfold evaluate_normal_mean, set_entry, entry.
  set (row := nth r m []) in *. set (ts := nth r t []).
  assert (Hts : length ts = length row).
  { unfold row, ts. clear - Hf Hr. revert r Hr; induction Hf; intros [|r] Hr; simpl in *; try lia; auto.
    apply IHHf; lia. }
  set (tt := nth c ts 0). set (g := fun m t => normal_log_prob m var t).
  set (f := fun (r : list R) ts => rsum (map2 g r ts)).
  set (K := - (rsum (map2 f m t) - g (nth c row 0) tt) + ln (sqrt var) + ln (2 * PI) / 2).
  apply (dlim_ext (fun x => K + (/ (2 * var)) * ((tt - x) * (tt - x)))).
  - intros x. rewrite (rsum_map2_set f m t r (set_nth c x row) [] []) by lia.
    fold row ts.
    assert (E : f (set_nth c x row) ts = f row ts - g (nth c row 0) tt + g x tt).
    { unfold f. rewrite (rsum_map2_set g row ts c x 0 0) by lia. reflexivity. }
    assert (Eg : g x tt = - (/ (2 * var) * ((tt - x) * (tt - x))) - ln (sqrt var) - ln (2 * PI) / 2)
      by (unfold g, normal_log_prob; field; lra).
    match goal with |- _ = - (?A - ?B + ?D) => change B with (f row ts); change D with (f (set_nth c x row) ts); change A with (rsum (map2 f m t)) end.
    unfold K. lra.
  - apply (dlim_val _ _ (0 + / (2 * var) * ((0 - 1) * (tt - nth c row 0) + (tt - nth c row 0) * (0 - 1)))).
    + unfold normal_grad. rewrite (nth_map2 _ m t r [] []) by lia. fold row ts.
      rewrite (nth_map2 _ row ts c 0 0) by lia. fold tt. field. lra.
    + apply (dlim_ext (plus_fct (fct_cte K) (mult_real_fct (/ (2 * var)) (mult_fct (minus_fct (fct_cte tt) id) (minus_fct (fct_cte tt) id))))).
      { intros y. reflexivity. }
      apply derivable_pt_lim_plus; [apply derivable_pt_lim_const|].
      apply derivable_pt_lim_scal. 
      apply (derivable_pt_lim_mult (minus_fct (fct_cte tt) id) (minus_fct (fct_cte tt) id));
        apply derivable_pt_lim_minus; try apply derivable_pt_lim_const; apply derivable_pt_lim_id.
Qed.

(* ------------------------------------------------------------------------ *)
(** * Directional derivatives of the gradients *)

Lemma nth_tadd_tscale z v s r : length z = length v -> (r < length z)%nat ->
  nth r (tadd z (tscale s v)) [] = radd (nth r z []) (rscale s (nth r v [])).
Proof.
  intros H Hr. unfold tadd. rewrite (nth_map2 radd _ _ r [] []); auto.
  - f_equal. apply (map_nth (rscale s) v []).
  - unfold tscale; rewrite map_length; lia.
Qed.

Lemma dlim_exp_line a b s : derivable_pt_lim (fun s => exp (a + s * b)) s (b * exp (a + s * b)).
Proof.
  apply (dlim_ext (comp exp (plus_fct (fct_cte a) (mult_real_fct b id)))).
  - intros y. unfold comp, plus_fct, fct_cte, mult_real_fct, id. f_equal. ring.
  - apply (dlim_val _ _ (exp (a + b * s) * (0 + b * 1))).
    + replace (a + b * s) with (a + s * b) by ring. ring.
    + apply derivable_pt_lim_comp.
      * apply derivable_pt_lim_plus; [apply derivable_pt_lim_const|].
        apply derivable_pt_lim_scal, derivable_pt_lim_id.
      * apply derivable_pt_lim_exp.
Qed.

Lemma dlim_sum_exp r x : length x = length r ->
  derivable_pt_lim (fun s => rsum (map exp (radd r (rscale s x)))) 0 (dot (map exp r) x).
Proof.
  revert x; induction r as [|a r IH]; intros [|b x] H; try discriminate.
  - unfold dot; simpl. apply (dlim_ext (fct_cte 0)); [intros; reflexivity|apply derivable_pt_lim_const].
  - simpl in H. cbn [map]. rewrite dot_cons.
    apply (dlim_ext (plus_fct (fun s => exp (a + s * b)) (fun s => rsum (map exp (radd r (rscale s x)))))).
    + intros s. unfold plus_fct. cbn [rscale map]. unfold radd at 2. rewrite map2_cons. reflexivity.
    + apply (dlim_val _ _ (b * exp (a + 0 * b) + dot (map exp r) x)).
      * rewrite Rmult_0_l, Rplus_0_r. ring.
      * apply derivable_pt_lim_plus; [apply dlim_exp_line|apply IH; lia].
Qed.

Lemma softmax_dot r x : length x = length r ->
  dot x (softmax r) = dot (map exp r) x / rsum (map exp r).
Proof.
  intros H. unfold softmax. cbv zeta. set (S := rsum (map exp r)). rewrite dot_comm.
  replace (map (fun y => exp y / S) r) with (rscale (/ S) (map exp r)).
  - rewrite dot_scale_l. unfold Rdiv. ring.
  - unfold rscale. rewrite map_map. apply map_ext. intros; unfold Rdiv; ring.
Qed.

Lemma nth_radd x y c : length x = length y -> nth c (radd x y) 0 = nth c x 0 + nth c y 0.
Proof.
  intros H. destruct (Nat.lt_ge_cases c (length x)).
  - unfold radd. rewrite (nth_map2 Rplus x y c 0 0) by lia. auto.
  - rewrite !nth_overflow; try lia; [ring|]. unfold radd. rewrite map2_length. lia.
Qed.

Lemma dlim_softmax r x c : length x = length r -> (c < length r)%nat ->
  derivable_pt_lim (fun s => nth c (softmax (radd r (rscale s x))) 0) 0 (nth c (cat_F (softmax r) x) 0).
Proof.
  intros H Hc.
  assert (Hr : r <> []) by (intros E; rewrite E in Hc; simpl in Hc; lia).
  pose proof (rsum_exp_pos r Hr) as HS.
  assert (Hlen : forall s, length (radd r (rscale s x)) = length r)
    by (intros; unfold radd; apply map2_length_eq; rewrite ?rscale_length; auto).
  assert (H0 : radd r (rscale 0 x) = r).
  { clear - H. revert x H; induction r as [|a r IH]; intros [|b x] H; try discriminate; auto.
    cbn [rscale map]. unfold radd. rewrite map2_cons. f_equal; [ring|]. apply IH. simpl in H; lia. }
  apply (dlim_ext (div_fct (fun s => exp (nth c r 0 + s * nth c x 0)) (fun s => rsum (map exp (radd r (rscale s x)))))).
  - intros s. unfold div_fct. rewrite nth_softmax by (rewrite Hlen; auto).
    rewrite nth_radd, nth_rscale by (rewrite rscale_length; auto). reflexivity.
  - assert (D := derivable_pt_lim_div (fun s => exp (nth c r 0 + s * nth c x 0))
       (fun s => rsum (map exp (radd r (rscale s x)))) 0 _ _ (dlim_exp_line (nth c r 0) (nth c x 0) 0) (dlim_sum_exp r x H)).
    cbv beta in D. rewrite H0 in D. specialize (D ltac:(lra)).
    apply (dlim_val _ _ _ _ (eq_sym _) D) || (eapply dlim_val; [|exact D]).
    unfold cat_F.
    rewrite (nth_map2 Rminus _ _ c 0 0) by (rewrite ?rscale_length, ?map2_length, ?softmax_length; lia).
    rewrite (nth_map2 Rmult _ _ c 0 0) by (rewrite ?softmax_length; lia).
    rewrite nth_rscale. fold (dot x (softmax r)). rewrite softmax_dot by auto.
    rewrite !nth_softmax by auto. rewrite Rmult_0_l, Rplus_0_r.
    unfold Rsqr. field. lra.
Qed.

Lemma dlim_sub_const f x d k : derivable_pt_lim f x d -> derivable_pt_lim (fun s => f s - k) x d.
Proof.
  intros H. apply (dlim_ext (minus_fct f (fct_cte k))); [reflexivity|].
  apply (dlim_val _ _ (d - 0)); [ring|]. apply derivable_pt_lim_minus; auto. apply derivable_pt_lim_const.
Qed.

Lemma cat_hessian n z v t : shaped (length z) n z -> shaped (length z) n v -> length t = length z ->
  is_directional (fun z => cat_grad z t) z v (map2 cat_F (map softmax z) v).
Proof.
  intros Hz Hv Ht r c Hr Hc. unfold entry.
  assert (Lv : length v = length z) by apply Hv.
  assert (Lr : length (nth r v []) = length (nth r z [])).
  { rewrite (row_of_len_shaped _ _ _ r Hz Hr), (row_of_len_shaped _ _ _ r Hv Hr); auto. }
  rewrite (nth_map2 cat_F _ _ r [] []); [|rewrite map_length; auto|lia].
  replace (nth r (map softmax z) []) with (softmax (nth r z [])) by (symmetry; apply (map_nth softmax z [])).
  apply (dlim_ext (fun s => nth c (softmax (radd (nth r z []) (rscale s (nth r v [])))) 0 - delta (nth r t O) c)).
  - intros s. unfold cat_grad.
    assert (Ls : length (tadd z (tscale s v)) = length z) by (apply map2_length_eq; [auto|unfold tscale; rewrite map_length; auto]).
    rewrite (nth_map2 _ _ t r [] O) by lia.
    rewrite nth_tadd_tscale by lia.
    assert (La : length (radd (nth r z []) (rscale s (nth r v []))) = length (nth r z []))
      by (unfold radd; apply map2_length_eq; rewrite ?rscale_length; auto).
    rewrite (nth_map2 Rminus _ _ c 0 0) by (rewrite ?softmax_length, ?one_hot_length, La; auto).
    rewrite nth_one_hot by (rewrite La; auto). reflexivity.
  - apply dlim_sub_const. apply dlim_softmax; auto.
Qed.

Lemma dlim_sigmoid a b : derivable_pt_lim (fun s => sigmoid (a + s * b)) 0 (sigmoid a * (1 - sigmoid a) * b).
Proof.
  pose proof (exp_pos a) as Ha.
  apply (dlim_ext (div_fct (fun s => exp (a + s * b)) (plus_fct (fct_cte 1) (fun s => exp (a + s * b))))).
  - intros s. rewrite sigmoid_alt. reflexivity.
  - assert (P : derivable_pt_lim (plus_fct (fct_cte 1) (fun s => exp (a + s * b))) 0 (0 + b * exp (a + 0 * b))).
    { apply derivable_pt_lim_plus; [apply derivable_pt_lim_const|apply dlim_exp_line]. }
    assert (D := derivable_pt_lim_div _ _ 0 _ _ (dlim_exp_line a b 0) P).
    unfold plus_fct, fct_cte in D. cbv beta in D. rewrite Rmult_0_l, Rplus_0_r in D.
    specialize (D ltac:(lra)). eapply dlim_val; [|exact D].
    rewrite !sigmoid_alt. unfold Rsqr. field. lra.
Qed.

Lemma bern_hessian n z v t : shaped (length z) n z -> shaped (length z) n v -> length t = length z ->
  Forall2 (fun (r : row) (ks : list nat) => length ks = length r) z t ->
  is_directional (fun z => bern_grad z t) z v
    (map2 (map2 (fun p x => p * (1 - p) * x)) (map (map sigmoid) z) v).
Proof.
  intros Hz Hv Ht Hf r c Hr Hc. unfold entry.
  assert (Lv : length v = length z) by apply Hv.
  assert (Lr : length (nth r v []) = length (nth r z [])).
  { rewrite (row_of_len_shaped _ _ _ r Hz Hr), (row_of_len_shaped _ _ _ r Hv Hr); auto. }
  assert (Lt : length (nth r t []) = length (nth r z [])).
  { clear - Hf Hr. revert r Hr; induction Hf; intros [|r] Hr; simpl in *; try lia; auto. apply IHHf; lia. }
  rewrite (nth_map2 _ _ _ r [] []); [|rewrite map_length; auto|lia].
  replace (nth r (map (map sigmoid) z) []) with (map sigmoid (nth r z [])) by (symmetry; apply (map_nth (map sigmoid) z [])).
  rewrite (nth_map2 _ _ _ c (sigmoid 0) 0) by (rewrite ?map_length; lia). rewrite map_nth.
  apply (dlim_ext (fun s => sigmoid (nth c (nth r z []) 0 + s * nth c (nth r v []) 0) - INR (nth c (nth r t []) O))).
  - intros s. unfold bern_grad.
    assert (Ls : length (tadd z (tscale s v)) = length z) by (apply map2_length_eq; [auto|unfold tscale; rewrite map_length; auto]).
    rewrite (nth_map2 _ _ t r [] []) by lia. rewrite nth_tadd_tscale by lia.
    rewrite (nth_map2 _ _ _ c 0 O).
    + rewrite nth_radd, nth_rscale by (rewrite rscale_length; auto). reflexivity.
    + unfold radd. rewrite map2_length, rscale_length. lia.
    + lia.
  - apply dlim_sub_const, dlim_sigmoid.
Qed.

Lemma normal_hessian n var m v t : 0 < var -> shaped (length m) n m -> shaped (length m) n v -> length t = length m ->
  Forall2 (fun (r ts : row) => length ts = length r) m t ->
  is_directional (fun m => normal_grad var m t) m v (tscale (1 / var) v).
Proof.
  intros Hvar Hz Hv Ht Hf r c Hr Hc. unfold entry.
  assert (Lv : length v = length m) by apply Hv.
  assert (Lr : length (nth r v []) = length (nth r m [])).
  { rewrite (row_of_len_shaped _ _ _ r Hz Hr), (row_of_len_shaped _ _ _ r Hv Hr); auto. }
  assert (Lt : length (nth r t []) = length (nth r m [])).
  { clear - Hf Hr. revert r Hr; induction Hf; intros [|r] Hr; simpl in *; try lia; auto. apply IHHf; lia. }
  replace (nth r (tscale (1 / var) v) []) with (rscale (1 / var) (nth r v [])) by (symmetry; apply (map_nth (rscale (1 / var)) v [])).
  rewrite nth_rscale. set (a := nth c (nth r m []) 0). set (b := nth c (nth r v []) 0). set (k := nth c (nth r t []) 0).
  apply (dlim_ext (plus_fct (fct_cte ((a - k) / var)) (mult_real_fct (b / var) id))).
  - intros s. unfold normal_grad, plus_fct, fct_cte, mult_real_fct, id.
    assert (Ls : length (tadd m (tscale s v)) = length m) by (apply map2_length_eq; [auto|unfold tscale; rewrite map_length; auto]).
    rewrite (nth_map2 _ _ t r [] []) by lia. rewrite nth_tadd_tscale by lia.
    rewrite (nth_map2 _ _ _ c 0 0).
    + rewrite nth_radd, nth_rscale by (rewrite rscale_length; auto). fold a b k. field. lra.
    + unfold radd. rewrite map2_length, rscale_length. lia.
    + lia.
  - apply (dlim_val _ _ (0 + b / var * 1)); [field; lra|].
    apply derivable_pt_lim_plus; [apply derivable_pt_lim_const|].
    apply derivable_pt_lim_scal, derivable_pt_lim_id.
Qed.

(* ------------------------------------------------------------------------ *)
(** * Expectations *)

Record prob_dist {A} (d : dist A) : Prop := {
  pd_ext : forall f g, (forall a, f a = g a) -> d f = d g;
  pd_add : forall f g, d (fun a => f a + g a) = d f + d g;
  pd_scale : forall c f, d (fun a => c * f a) = c * d f;
  pd_one : d (fun _ => 1) = 1 }.

Lemma pd_const {A} (d : dist A) c : prob_dist d -> d (fun _ => c) = c.
Proof.
  intros H. rewrite (pd_ext d H _ (fun a => c * 1)) by (intros; ring).
  rewrite (pd_scale d H c (fun _ => 1)), (pd_one d H). ring.
Qed.

Lemma pick_pd ps : rsum ps = 1 -> prob_dist (pick ps).
Proof.
  intros H. unfold pick. split.
  - intros f g E. apply sum_n_ext. intros; rewrite E; auto.
  - intros f g. rewrite <- sum_n_add. apply sum_n_ext; intros; ring.
  - intros c f. rewrite <- sum_n_scale. apply sum_n_ext; intros; ring.
  - rewrite (sum_n_ext _ _ (fun k => nth k ps 0)) by (intros; ring). rewrite <- rsum_sum; auto.
Qed.

Lemma independent_pd {A} (ds : list (dist A)) : Forall prob_dist ds -> prob_dist (independent ds).
Proof.
  induction 1 as [|d ds Hd Hds IH]; simpl.
  - split; auto.
  - split.
    + intros f g E. apply (pd_ext d Hd). intros a. apply (pd_ext _ IH). auto.
    + intros f g. rewrite <- (pd_add d Hd). apply (pd_ext d Hd). intros a. apply (pd_add _ IH (fun l => f (a :: l)) (fun l => g (a :: l))).
    + intros c f. rewrite <- (pd_scale d Hd). apply (pd_ext d Hd). intros a. apply (pd_scale _ IH c (fun l => f (a :: l))).
    + rewrite (pd_ext d Hd _ (fun _ => 1)); [apply (pd_one d Hd)|]. intros; apply (pd_one _ IH).
Qed.

Lemma independent_nth {A} (ds : list (dist A)) h r a0 d0 : Forall prob_dist ds -> (r < length ds)%nat ->
  independent ds (fun t => h (nth r t a0)) = nth r ds d0 h.
Proof.
  intros H; revert r; induction H as [|d ds Hd Hds IH]; intros [|r] Hr; simpl in *; try lia.
  - apply (pd_ext d Hd). intros a. apply pd_const, independent_pd; auto.
  - rewrite (pd_ext d Hd _ (fun _ => nth r ds d0 h)); [apply pd_const; auto|].
    intros a. apply IH. lia.
Qed.

(** The covariance of one coordinate with a sum of one term per coordinate. *)
Lemma independent_pair {A} (ds : list (dist A)) (fs : list (A -> R)) h r a0 d0 f0 :
  Forall prob_dist ds -> length fs = length ds -> (r < length ds)%nat ->
  nth r ds d0 h = 0 ->
  independent ds (fun t => h (nth r t a0) * rsum (map2 (fun f a => f a) fs t)) =
  nth r ds d0 (fun a => h a * nth r fs f0 a).
Proof.
  intros H; revert fs r; induction H as [|d ds Hd Hds IH]; intros [|f fs] [|r] Hl Hr H0; simpl in *; try lia.
  - assert (PI := independent_pd ds Hds).
    set (E := independent ds (fun t => rsum (map2 (fun f a => f a) fs t))).
    rewrite (pd_ext d Hd _ (fun a => h a * f a + E * h a)).
    + rewrite (pd_add d Hd (fun a => h a * f a) (fun a => E * h a)), (pd_scale d Hd), H0. ring.
    + intros a. rewrite (pd_ext _ PI _ (fun l => h a * f a + h a * rsum (map2 (fun f a => f a) fs l))).
      * rewrite (pd_add _ PI (fun _ => h a * f a) (fun l => h a * rsum (map2 (fun f a => f a) fs l))).
        rewrite (pd_const _ _ PI), (pd_scale _ PI). fold E. ring.
      * intros l. unfold map2, rsum. simpl. ring.
  - assert (PI := independent_pd ds Hds).
    rewrite (pd_ext d Hd _ (fun _ => nth r ds d0 (fun a => h a * nth r fs f0 a))); [apply pd_const; auto|].
    intros a. rewrite (pd_ext _ PI _ (fun l => f a * h (nth r l a0) + h (nth r l a0) * rsum (map2 (fun f a => f a) fs l))).
    + rewrite (pd_add _ PI (fun l => f a * h (nth r l a0)) (fun l => h (nth r l a0) * rsum (map2 (fun f a => f a) fs l))).
      rewrite (pd_scale _ PI (f a) (fun l => h (nth r l a0))), (independent_nth ds h r a0 d0) by (auto; lia).
      rewrite H0, Rmult_0_r, Rplus_0_l. apply IH; auto; lia.
    + intros l. unfold map2, rsum. simpl. ring.
Qed.

(** The inner product with [v] as a sum of one term per row. *)
Lemma tdot_rows {A} (g : row -> A -> row) (z v : tensor) (t : list A) :
  length v = length z ->
  tdot (map2 g z t) v = rsum (map2 (fun f a => f a) (map2 (fun r x a => dot (g r a) x) z v) t).
Proof.
  revert v t; induction z as [|r z IH]; intros [|x v] [|a t] H; try discriminate; auto.
  rewrite !map2_cons, tdot_cons. cbn [rsum fold_right]. simpl in H. rewrite IH by lia. reflexivity.
Qed.

Lemma pick_delta p c : (c < length p)%nat -> forall f, sum_n (length p) (fun k => nth k p 0 * (delta k c * f k)) = nth c p 0 * f c.
Proof.
  intros Hc f. rewrite (sum_n_ext _ _ (fun k => delta c k * (nth k p 0 * f k))).
  - apply sum_n_delta; auto.
  - intros k Hk. unfold delta. rewrite (Nat.eqb_sym k c). ring.
Qed.

Lemma dot_one_hot n k x : length x = n -> (k < n)%nat -> dot (one_hot n k) x = nth k x 0.
Proof.
  intros H Hk. rewrite (dot_sum _ _ n) by (rewrite ?one_hot_length; auto).
  rewrite (sum_n_ext n _ (fun j => delta k j * nth j x 0)) by (intros; rewrite nth_one_hot by auto; auto).
  apply sum_n_delta; auto.
Qed.

Section CatRow.
Variables (n : nat) (p x : row) (c : nat).
Hypothesis Hp : length p = n.
Hypothesis Hx : length x = n.
Hypothesis Hs : rsum p = 1.
Hypothesis Hc : (c < n)%nat.

Lemma cat_row_mean : pick p (fun k => nth c p 0 - delta k c) = 0.
Proof.
  unfold pick. rewrite (sum_n_ext _ _ (fun k => nth c p 0 * nth k p 0 - nth k p 0 * (delta k c * 1))) by (intros; ring).
  rewrite sum_n_sub, sum_n_scale, pick_delta by lia. rewrite <- rsum_sum, Hs. ring.
Qed.

Lemma cat_row_cov :
  pick p (fun k => (nth c p 0 - delta k c) * dot (map2 Rminus p (one_hot n k)) x) = nth c (cat_F p x) 0.
Proof.
  unfold pick. set (m := dot p x).
  rewrite (sum_n_ext _ _ (fun k => (nth c p 0 * m) * nth k p 0 - nth c p 0 * (nth k p 0 * nth k x 0)
              - nth k p 0 * (delta k c * (m - nth k x 0)))).
  2:{ intros k Hk. rewrite dot_sub_l by (rewrite one_hot_length; auto).
      rewrite dot_one_hot by (auto; lia). fold m. ring. }
  rewrite !sum_n_sub, !sum_n_scale, pick_delta, <- rsum_sum by lia. rewrite Hs.
  rewrite Hp, <- (dot_sum p x n) by auto. fold m. unfold cat_F.
  rewrite (nth_map2 Rminus _ _ c 0 0) by (rewrite ?rscale_length, ?map2_length; lia).
  rewrite (nth_map2 Rmult _ _ c 0 0) by lia. rewrite nth_rscale. fold (dot x p).
  rewrite (dot_comm x p). fold m. ring.
Qed.
End CatRow.

Lemma softmax_pd r : r <> [] -> prob_dist (pick (softmax r)).
Proof. intros; apply pick_pd, softmax_sum; auto. Qed.

Lemma nth_map_gen {A B} (f : A -> B) l i da db : (i < length l)%nat -> nth i (map f l) db = f (nth i l da).
Proof. intros H. rewrite (nth_indep _ db (f da)) by (rewrite map_length; auto). apply map_nth. Qed.

Lemma cat_expect n z v r c : (0 < n)%nat -> shaped (length z) n z -> shaped (length z) n v ->
  (r < length z)%nat -> (c < n)%nat ->
  categorical_targets z (fun t => entry (cat_grad z t) r c) = 0 /\
  categorical_targets z (fun t => entry (cat_grad z t) r c * tdot (cat_grad z t) v)
  = entry (map2 cat_F (map softmax z) v) r c.
Proof.
  intros Hn Hz Hv Hr Hc. unfold categorical_targets, entry.
  set (ds := map (fun r => pick (softmax r)) z).
  assert (Hds : Forall prob_dist ds).
  { apply Forall_forall. intros d Hd. apply in_map_iff in Hd as [row [<- Hin]].
    apply softmax_pd. destruct Hz as [_ Hz]. rewrite Forall_forall in Hz. specialize (Hz row Hin).
    intros ->. simpl in Hz; lia. }
  assert (Lds : length ds = length z) by apply map_length.
  assert (Lz : length (nth r z []) = n) by (eapply row_of_len_shaped; eauto).
  assert (Lv : length (nth r v []) = n) by (eapply row_of_len_shaped; eauto).
  assert (Lv' : length v = length z) by apply Hv.
  assert (Hne : nth r z [] <> []) by (intros E; rewrite E in Lz; simpl in Lz; lia).
  set (p := softmax (nth r z [])). assert (Lp : length p = n) by (unfold p; rewrite softmax_length; auto).
  assert (Hsp : rsum p = 1) by (apply softmax_sum; auto).
  set (h := fun k => nth c p 0 - delta k c).
  assert (Hd : nth r ds (pick []) = pick p) by (unfold ds; apply (nth_map_gen (fun r => pick (softmax r)) z r []); auto).
  (* the entry, for target lists of the right length *)
  assert (PI := independent_pd ds Hds).
  assert (Hsup : forall f g, (forall t, length t = length z -> f t = g t) -> independent ds f = independent ds g).
  { clear - Hds Lds. rewrite <- Lds. clear Lds. induction Hds as [|d ds Hd Hds IH]; simpl; intros f g E.
    - apply E; auto.
    - apply (pd_ext d Hd). intros a. apply IH. intros t Ht. apply E. simpl; auto. }
  assert (Hent : forall t, length t = length z -> nth c (nth r (cat_grad z t) []) 0 = h (nth r t O)).
  { intros t Ht. unfold cat_grad. rewrite (nth_map2 _ z t r [] O) by lia.
    rewrite (nth_map2 Rminus _ _ c 0 0) by (rewrite ?softmax_length, ?one_hot_length, Lz; auto).
    rewrite nth_one_hot by lia. reflexivity. }
  assert (H0 : nth r ds (pick []) h = 0) by (rewrite Hd; apply (cat_row_mean n p (nth r v [])); auto).
  split.
  - rewrite (Hsup _ (fun t => h (nth r t O))) by auto.
    rewrite (independent_nth ds h r O (pick [])) by (auto; lia). auto.
  - rewrite (Hsup _ (fun t => h (nth r t O) * rsum (map2 (fun f a => f a)
        (map2 (fun r x a => dot ((fun r k => map2 Rminus (softmax r) (one_hot (length r) k)) r a) x) z v) t))).
    + rewrite (independent_pair ds _ h r O (pick []) (fun _ => 0)); auto; try lia.
      * rewrite Hd. rewrite (nth_map2 _ z v r [] []) by lia. fold p. rewrite Lz.
        rewrite (nth_map2 cat_F _ _ r [] []); [|rewrite map_length; auto|lia].
        rewrite (nth_map_gen softmax z r [] []) by auto. fold p.
        apply (cat_row_cov n); auto.
      * rewrite Lds. apply map2_length_eq; auto.
    + intros t Ht. rewrite Hent by auto. f_equal. unfold cat_grad. apply tdot_rows; auto.
Qed.

(** Bernoulli targets. *)
Lemma bern_pd x : prob_dist (pick [1 - sigmoid x; sigmoid x]).
Proof. apply pick_pd. simpl. ring. Qed.

Lemma bern_mean x : pick [1 - sigmoid x; sigmoid x] (fun k => sigmoid x - INR k) = 0.
Proof. unfold pick, sum_n. simpl. ring. Qed.
Lemma bern_cov x y : pick [1 - sigmoid x; sigmoid x] (fun k => (sigmoid x - INR k) * ((sigmoid x - INR k) * y))
  = sigmoid x * (1 - sigmoid x) * y.
Proof. unfold pick, sum_n. simpl. ring. Qed.

Lemma dot_terms {A} (g : R -> A -> R) (z v : row) (t : list A) : length v = length z ->
  dot (map2 g z t) v = rsum (map2 (fun f a => f a) (map2 (fun r x a => g r a * x) z v) t).
Proof.
  revert v t; induction z as [|r z IH]; intros [|x v] [|a t] H; try discriminate; auto.
  rewrite !map2_cons, dot_cons. cbn [rsum fold_right]. simpl in H. rewrite IH by lia. reflexivity.
Qed.

Lemma independent_support {A} (ds : list (dist A)) (Q : A -> Prop) : Forall prob_dist ds ->
  Forall (fun d : dist A => forall f g, (forall a, Q a -> f a = g a) -> d f = d g) ds ->
  forall f g, (forall t, length t = length ds -> Forall Q t -> f t = g t) -> independent ds f = independent ds g.
Proof.
  induction 1 as [|d ds Hd Hds IH]; simpl; intros Hs f g E.
  - apply E; auto.
  - inversion Hs as [|? ? Hs1 Hs2]; subst. apply Hs1. intros a Ha. apply IH; auto.
    intros t Ht Hq. apply E; simpl; auto.
Qed.

Lemma bern_expect n z v r c : shaped (length z) n z -> shaped (length z) n v ->
  (r < length z)%nat -> (c < n)%nat ->
  bernoulli_targets z (fun t => entry (bern_grad z t) r c) = 0 /\
  bernoulli_targets z (fun t => entry (bern_grad z t) r c * tdot (bern_grad z t) v)
  = entry (map2 (map2 (fun p x => p * (1 - p) * x)) (map (map sigmoid) z) v) r c.
Proof.
  intros Hz Hv Hr Hc. unfold bernoulli_targets, entry.
  set (rd := fun r : row => independent (map (fun x => pick [1 - sigmoid x; sigmoid x]) r)).
  set (ds := map rd z).
  assert (Hin : forall row : row, Forall prob_dist (map (fun x => pick [1 - sigmoid x; sigmoid x]) row)).
  { intros row. apply Forall_forall. intros d Hd. apply in_map_iff in Hd as [x [<- _]]. apply bern_pd. }
  assert (Hds : Forall prob_dist ds).
  { apply Forall_forall. intros d Hd. apply in_map_iff in Hd as [row [<- _]]. apply independent_pd; auto. }
  assert (Lds : length ds = length z) by apply map_length.
  assert (Lz : length (nth r z []) = n) by (eapply row_of_len_shaped; eauto).
  assert (Lv : length (nth r v []) = n) by (eapply row_of_len_shaped; eauto).
  assert (Lv' : length v = length z) by apply Hv.
  set (x := nth c (nth r z []) 0).
  set (h := fun ks => sigmoid x - INR (nth c ks O)).
  assert (Hd : nth r ds (fun _ => 0) = rd (nth r z [])) by (unfold ds; apply (nth_map_gen rd z r []); auto).
  assert (Hsup : forall f g, (forall t, length t = length z -> Forall (fun ks => length ks = n) t -> f t = g t) ->
      independent ds f = independent ds g).
  { intros f g E. apply (independent_support ds (fun ks => length ks = n)); auto.
    - apply Forall_forall. intros d Hdd. apply in_map_iff in Hdd as [row [<- Hrow]].
      intros f' g' E'. apply (independent_support _ (fun _ => True)); auto.
      + apply Forall_forall. intros d' Hd'. apply in_map_iff in Hd' as [y [<- _]].
        intros f2 g2 E2. apply (pd_ext _ (bern_pd y)). auto.
      + intros t Ht _. apply E'. rewrite Ht, map_length.
        destruct Hz as [_ Hz]. rewrite Forall_forall in Hz. auto.
    - intros t Ht Hq. apply E; auto. lia. }
  assert (Hks : forall t, length t = length z -> Forall (fun ks => length ks = n) t -> length (nth r t ([] : list nat)) = n).
  { intros t Ht Hq. rewrite Forall_forall in Hq. apply Hq, nth_In. lia. }
  assert (Hent : forall t, length t = length z -> Forall (fun ks => length ks = n) t ->
     nth c (nth r (bern_grad z t) []) 0 = h (nth r t [])).
  { intros t Ht Hq. unfold bern_grad. rewrite (nth_map2 _ z t r [] []) by lia.
    specialize (Hks t Ht Hq).
    rewrite (nth_map2 _ _ _ c 0 O) by lia. reflexivity. }
  assert (H0 : nth r ds (fun _ => 0) h = 0).
  { rewrite Hd. unfold rd, h.
    rewrite (independent_nth _ (fun k => sigmoid x - INR k) c O (pick [])) by (auto; rewrite map_length; lia).
    rewrite (nth_map_gen (fun x => pick [1 - sigmoid x; sigmoid x]) (nth r z []) c 0) by lia.
    apply bern_mean. }
  split.
  - rewrite (Hsup _ (fun t => h (nth r t []))) by auto.
    rewrite (independent_nth ds h r [] (fun _ => 0)) by (auto; lia). auto.
  - rewrite (Hsup _ (fun t => h (nth r t []) * rsum (map2 (fun f a => f a)
        (map2 (fun r x a => dot ((map2 (fun x k => sigmoid x - INR k)) r a) x) z v) t))).
    + rewrite (independent_pair ds _ h r [] (fun _ => 0) (fun _ => 0)); auto; try lia.
      * rewrite Hd. rewrite (nth_map2 _ z v r [] []) by lia.
        rewrite (nth_map2 _ _ _ r [] []); [|rewrite map_length; auto|lia].
        rewrite (nth_map_gen (map sigmoid) z r [] []) by auto.
        rewrite (nth_map2 _ _ _ c (sigmoid 0) 0) by (rewrite ?map_length; lia). rewrite map_nth. fold x.
        unfold rd. rewrite (pd_ext _ (independent_pd _ (Hin (nth r z []))) _
          (fun ks => (sigmoid x - INR (nth c ks O)) * rsum (map2 (fun f a => f a)
             (map2 (fun r y a => (sigmoid r - INR a) * y) (nth r z []) (nth r v [])) ks))).
        2:{ intros ks. unfold h. f_equal. apply (dot_terms (fun x k => sigmoid x - INR k)). lia. }
        rewrite (independent_pair _ _ (fun k => sigmoid x - INR k) c O (pick []) (fun _ => 0)).
        -- rewrite (nth_map_gen (fun x => pick [1 - sigmoid x; sigmoid x]) (nth r z []) c 0) by lia.
           fold x. rewrite (nth_map2 _ _ _ c 0 0) by lia. fold x. apply bern_cov.
        -- auto.
        -- rewrite map_length. apply map2_length_eq; lia.
        -- rewrite map_length; lia.
        -- rewrite (nth_map_gen (fun x => pick [1 - sigmoid x; sigmoid x]) (nth r z []) c 0) by lia.
           apply bern_mean.
      * rewrite Lds. apply map2_length_eq; auto.
    + intros t Ht Hq. rewrite Hent by auto. f_equal. unfold bern_grad. apply tdot_rows; auto.
Qed.

(** Random signs. *)
Lemma sign_pd : prob_dist fair_sign.
Proof.
  unfold fair_sign. split; intros; try lra.
  rewrite !H; auto.
Qed.
Lemma forall_repeat {A} (P : A -> Prop) a n : P a -> Forall P (repeat a n).
Proof. intros; apply Forall_forall; intros x Hx; apply repeat_spec in Hx; subst; auto. Qed.
Lemma nth_repeat_in {A} (a d : A) n i : (i < n)%nat -> nth i (repeat a n) d = a.
Proof. revert i; induction n; intros [|i]; simpl; intros; try lia; auto. apply IHn; lia. Qed.

Lemma dot_sum_terms (u s : row) : rsum (map2 (fun f a => f a) (map (fun x a => a * x) u) s) = dot s u.
Proof.
  revert s; induction u as [|x u IH]; intros [|a s]; auto.
  cbn [map]. rewrite map2_cons, dot_cons. cbn [rsum fold_right]. unfold rsum in IH. rewrite IH. reflexivity.
Qed.
Lemma tdot_sum_terms (u s : tensor) : rsum (map2 (fun f a => f a) (map (fun x a => dot a x) u) s) = tdot s u.
Proof.
  revert s; induction u as [|x u IH]; intros [|a s]; auto.
  cbn [map]. rewrite map2_cons, tdot_cons. cbn [rsum fold_right]. unfold rsum in IH. rewrite IH. reflexivity.
Qed.

Lemma sign_row_pd n : prob_dist (independent (repeat fair_sign n)).
Proof. apply independent_pd, forall_repeat, sign_pd. Qed.
Lemma sign_rows_pd b n : prob_dist (sign_rows b n).
Proof. apply independent_pd, forall_repeat, sign_row_pd. Qed.

(** E[s <s, u>] = u. *)
Lemma sign_identity b n u r c : shaped b n u -> (r < b)%nat -> (c < n)%nat ->
  sign_rows b n (fun s => entry s r c * tdot s u) = entry u r c.
Proof.
  intros Hu Hr Hc. unfold entry.
  set (rd := independent (repeat fair_sign n)).
  assert (Lu : length (nth r u []) = n) by (eapply row_of_len_shaped; eauto).
  assert (Lb : length u = b) by apply Hu.
  assert (PI := sign_rows_pd b n).
  rewrite (pd_ext _ PI _ (fun s => (fun ss => nth c ss 0) (nth r s []) *
     rsum (map2 (fun f a => f a) (map (fun x a => dot a x) u) s))).
  2:{ intros s. rewrite tdot_sum_terms. reflexivity. }
  assert (H0 : rd (fun ss => nth c ss 0) = 0).
  { unfold rd. rewrite (independent_nth _ (fun y => y) c 0 fair_sign) by (try apply forall_repeat, sign_pd; rewrite repeat_length; auto).
    rewrite nth_repeat_in by auto. unfold fair_sign; lra. }
  unfold sign_rows. fold rd.
  rewrite (independent_pair (repeat rd b) _ (fun ss => nth c ss 0) r [] rd (fun _ => 0)).
  - rewrite nth_repeat_in by auto.
    rewrite (nth_map_gen (fun x a => dot a x) u r []) by lia.
    rewrite (pd_ext _ (sign_row_pd n) _ (fun ss => (fun y => y) (nth c ss 0) * rsum (map2 (fun f a => f a) (map (fun x a => a * x) (nth r u [])) ss))).
    2:{ intros ss. rewrite dot_sum_terms. auto. }
    rewrite (independent_pair (repeat fair_sign n) _ (fun y => y) c 0 fair_sign (fun _ => 0)).
    + rewrite nth_repeat_in by auto. rewrite (nth_map_gen (fun x a => a * x) _ c 0) by lia.
      unfold fair_sign. lra.
    + apply forall_repeat, sign_pd.
    + rewrite map_length, repeat_length; auto.
    + rewrite repeat_length; auto.
    + rewrite nth_repeat_in by auto. unfold fair_sign; lra.
  - apply forall_repeat, sign_row_pd.
  - rewrite map_length, repeat_length; auto.
  - rewrite repeat_length; auto.
  - rewrite nth_repeat_in by auto. auto.
Qed.

(* ------------------------------------------------------------------------ *)
(** * Statements about the loss API *)

Lemma categorical_scores n z v : (0 < n)%nat -> wf_loss (Categorical n z) -> input_like (Categorical n z) (V1 v) ->
  exists g w,
    (forall t, length t = length z -> is_gradient (fun z => evaluate_categorical z t) z (g t)) /\
    multiply_fisher (Categorical n z) (V1 v) = Ok (V1 w) /\
    forall r c, (r < length z)%nat -> (c < n)%nat ->
      categorical_targets z (fun t => entry (g t) r c) = 0 /\
      categorical_targets z (fun t => entry (g t) r c * tdot (g t) v) = entry w r c.
Proof.
  intros Hn Hz Hv. exists (cat_grad z), (map2 cat_F (map softmax z) v).
  split; [intros; apply cat_gradient; auto|]. split; [reflexivity|].
  intros r c Hr Hc. apply (cat_expect n); auto.
Qed.
Lemma bernoulli_scores n z v : wf_loss (MultiBernoulli n z) -> input_like (MultiBernoulli n z) (V1 v) ->
  exists g w,
    (forall t, Forall2 (fun (r : row) (ks : list nat) => length ks = length r) z t ->
       is_gradient (fun z => evaluate_multi_bernoulli z t) z (g t)) /\
    multiply_fisher (MultiBernoulli n z) (V1 v) = Ok (V1 w) /\
    forall r c, (r < length z)%nat -> (c < n)%nat ->
      bernoulli_targets z (fun t => entry (g t) r c) = 0 /\
      bernoulli_targets z (fun t => entry (g t) r c * tdot (g t) v) = entry w r c.
Proof.
  intros Hz Hv. exists (bern_grad z), (map2 (map2 (fun p x => p * (1 - p) * x)) (map (map sigmoid) z) v).
  split; [|split; [reflexivity|]].
  - intros t Ht. apply bern_gradient; auto. clear - Ht. induction Ht; simpl; congruence.
  - intros r c Hr Hc. apply (bern_expect n); auto.
Qed.

Lemma categorical_ggn n z v t : wf_loss (Categorical n z) -> input_like (Categorical n z) (V1 v) -> length t = length z ->
  exists g w,
    (forall z', shaped (length z) n z' -> is_gradient (fun z => evaluate_categorical z t) z' (g z')) /\
    multiply_ggn (Categorical n z) (V1 v) = Ok (V1 w) /\ is_directional g z v w.
Proof.
  intros Hz Hv Ht. exists (fun z => cat_grad z t), (map2 cat_F (map softmax z) v).
  split; [intros z' [L _]; apply cat_gradient; congruence|]. split; [reflexivity|].
  apply (cat_hessian n); auto.
Qed.
Lemma bernoulli_ggn n z v t : wf_loss (MultiBernoulli n z) -> input_like (MultiBernoulli n z) (V1 v) ->
  length t = length z -> Forall (fun ks : list nat => length ks = n) t ->
  exists g w,
    (forall z', shaped (length z) n z' -> is_gradient (fun z => evaluate_multi_bernoulli z t) z' (g z')) /\
    multiply_ggn (MultiBernoulli n z) (V1 v) = Ok (V1 w) /\ is_directional g z v w.
Proof.
  intros Hz Hv Ht Hk.
  assert (F : forall z', shaped (length z) n z' -> Forall2 (fun (r : row) (ks : list nat) => length ks = length r) z' t).
  { intros z' [L F]. rewrite <- Ht in L. clear - L F Hk. revert t L Hk. induction F; intros [|k t] L Hk; try discriminate; constructor.
    - inversion Hk; congruence.
    - inversion Hk; subst. apply IHF; auto. }
  exists (fun z => bern_grad z t), (map2 (map2 (fun p x => p * (1 - p) * x)) (map (map sigmoid) z) v).
  split; [intros z' Hz'; apply bern_gradient; auto; destruct Hz'; congruence|]. split; [reflexivity|].
  apply (bern_hessian n); auto.
Qed.
Lemma normal_mean_ggn n m var v t : wf_loss (NormalMean n m var) -> input_like (NormalMean n m var) (V1 v) ->
  shaped (length m) n t ->
  exists g w,
    (forall m', shaped (length m) n m' -> is_gradient (fun m => evaluate_normal_mean m var t) m' (g m')) /\
    multiply_ggn (NormalMean n m var) (V1 v) = Ok (V1 w) /\ is_directional g m v w.
Proof.
  intros [Hm Hp] Hv [Lt Ft].
  assert (F : forall m', shaped (length m) n m' -> Forall2 (fun r ts : row => length ts = length r) m' t).
  { intros z' [L F]. rewrite <- Lt in L. clear - L F Ft. revert t L Ft. induction F; intros [|k t] L Hk; try discriminate; constructor.
    - inversion Hk; congruence.
    - inversion Hk; subst. apply IHF; auto. }
  exists (fun m => normal_grad var m t), (tscale (1 / var) v).
  split; [intros z' Hz'; apply normal_gradient; auto; destruct Hz'; congruence|]. split; [reflexivity|].
  apply (normal_hessian n); auto.
Qed.

Lemma categorical_prob r k : (k < length r)%nat -> exp (- evaluate_categorical [r] [k]) = nth k (softmax r) 0.
Proof.
  intros H. rewrite <- cat_prob by auto. f_equal. unfold evaluate_categorical, map2. simpl. ring.
Qed.
Lemma bernoulli_prob x :
  exp (- evaluate_multi_bernoulli [[x]] [[1%nat]]) = sigmoid x /\
  exp (- evaluate_multi_bernoulli [[x]] [[0%nat]]) = 1 - sigmoid x.
Proof.
  destruct (bern_prob x) as [H1 H2].
  split; [rewrite <- H1|rewrite <- H2]; f_equal; unfold evaluate_multi_bernoulli, map2; simpl; ring.
Qed.
