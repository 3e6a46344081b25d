(** Scaling the coefficients of the registered losses: proofs for C120. *)
From Coq Require Import List Arith Bool Reals Lra Lia.
From Verif.Base Require Import Py.
From Verif.Curv Require Import Model VecProofs LossProofs UnitsSpec.
Import ListNotations.
Open Scope list_scope.
Open Scope R_scope.

Lemma rscale_radd k x : forall y, rscale k (radd x y) = radd (rscale k x) (rscale k y).
Proof.
  induction x as [|a x IH]; intros [|b y]; try reflexivity.
  specialize (IH y). unfold rscale, radd, map2 in *. cbn. rewrite IH. f_equal. ring.
Qed.
Lemma tscale_tadd k x : forall y, tscale k (tadd x y) = tadd (tscale k x) (tscale k y).
Proof.
  induction x as [|a x IH]; intros [|b y]; try reflexivity.
  specialize (IH y). unfold tscale, tadd, map2 in *. cbn [zip map fst snd].
  rewrite rscale_radd, IH. reflexivity.
Qed.
Lemma tscale_zeros k sizes : tscale k (zeros sizes) = zeros sizes.
Proof.
  unfold tscale, zeros. rewrite map_map. apply map_ext. intros n.
  unfold rscale. induction n as [|n IH]; [reflexivity|]. cbn. rewrite IH. f_equal. ring.
Qed.

Lemma grad_row_scale k ws : forall gs z,
  grad_row (tscale k z) gs (map (Rmult k) ws) = tscale k (grad_row z gs ws).
Proof.
  unfold grad_row. induction ws as [|w ws IH]; intros [|g gs] z; try reflexivity.
  cbn [zip map fold_right fst snd]. rewrite (IH gs z), tscale_tadd, tscale_compose. reflexivity.
Qed.
Lemma grad_tensor_scale k w : forall gs z,
  grad_tensor (tscale k z) gs (tscale k w) = tscale k (grad_tensor z gs w).
Proof.
  unfold grad_tensor. induction w as [|r w IH]; intros [|g gs] z; try reflexivity.
  cbn [tscale zip map fold_right fst snd]. unfold tscale in IH at 2. rewrite (IH gs z).
  unfold rscale. apply grad_row_scale.
Qed.
Lemma grad_all_scale k ws : forall gs z,
  grad_all (tscale k z) gs (map (tscale k) ws) = tscale k (grad_all z gs ws).
Proof.
  unfold grad_all. induction ws as [|w ws IH]; intros [|g gs] z; try reflexivity.
  cbn [zip map fold_right fst snd]. rewrite (IH gs z). apply grad_tensor_scale.
Qed.

Lemma flatten_lscale k vs : flatten (map (lscale k) vs) = map (tscale k) (flatten vs).
Proof.
  unfold flatten. induction vs as [|v vs IH]; [reflexivity|]. cbn [map concat].
  rewrite map_app, <- IH. destruct v; reflexivity.
Qed.

Lemma jt_scale k c vs : multiply_jacobian_transpose c (map (lscale k) vs)
  = res_map (tscale k) (multiply_jacobian_transpose c vs).
Proof.
  unfold multiply_jacobian_transpose. rewrite flatten_lscale, map_length.
  destruct (Nat.eqb (length (flatten vs)) (length (c_jac c))); [|reflexivity].
  cbn [res_map]. rewrite <- grad_all_scale, tscale_zeros. reflexivity.
Qed.

Lemma lscale_mul a b v : lscale a (lscale b v) = lscale (a * b) v.
Proof. destruct v; cbn [lscale]; rewrite !tscale_compose; reflexivity. Qed.

Section Units.
Variable k : R.
Hypothesis K : 0 < k.

Lemma sqrt_units a : sqrt (k * a) = sqrt k * sqrt a.
Proof. apply sqrt_mult_alt. lra. Qed.

Lemma map2_units (f : R -> R) (a : R) (ls : list (loss * R)) : forall g,
  (forall r, f (k * r) = a * f r) ->
  map2 (fun lc v => lscale (f (snd lc)) v) (map (fun lc => (fst lc, k * snd lc)) ls) g
  = map (lscale a) (map2 (fun lc v => lscale (f (snd lc)) v) ls g).
Proof.
  intros g F. revert g. induction ls as [|l ls IH]; intros [|v g]; try reflexivity.
  unfold map2 in *. cbn [map zip fst snd]. rewrite IH, F, lscale_mul. reflexivity.
Qed.

Lemma units_gradients c g :
  grads_gradients (units_computer k c) g = res_map (tscale (sqrt k)) (grads_gradients c g).
Proof.
  unfold grads_gradients. cbn [units_computer c_losses].
  rewrite (map2_units sqrt (sqrt k)) by apply sqrt_units. apply (jt_scale (sqrt k) c).
Qed.
Lemma units_empirical c g :
  grads_empirical (units_computer k c) g = res_map (tscale k) (grads_empirical c g).
Proof.
  unfold grads_empirical. cbn [units_computer c_losses].
  rewrite (map2_units (fun r => r) k) by reflexivity. apply (jt_scale k c).
Qed.

Definition coefficient (m : coeff_mode) (r : R) : R := match m with Regular => r | Sqrt => sqrt r end.

Lemma across_units c f vs m :
  multiply_across_losses (units_computer k c) f vs m
  = res_map (map (lscale (coefficient m k))) (multiply_across_losses c f vs m).
Proof.
  unfold multiply_across_losses. cbn [units_computer c_losses].
  generalize (c_losses c). intros ls. revert vs.
  induction ls as [|[l r] ls IH]; intros [|v vs]; try reflexivity.
  cbn [map zip fst snd mapM]. rewrite IH. destruct (f l v) as [[t|t u]|]; cbn [bind]; try reflexivity.
  destruct (mapM _ (zip ls vs)) as [bs|]; [|reflexivity]. cbn [bind res_map map lscale].
  rewrite tscale_compose. destruct m; cbn [coefficient]; rewrite ?sqrt_units; reflexivity.
Qed.

Lemma units_multiply kind c v :
  multiply_curv kind (units_computer k c) v = res_map (tscale k) (multiply_curv kind c v).
Proof.
  unfold multiply_curv.
  replace (multiply_jacobian (units_computer k c) v) with (multiply_jacobian c v)
    by (unfold multiply_jacobian; cbn [units_computer c_losses c_jac]; rewrite map_map; reflexivity).
  destruct (multiply_jacobian c v) as [jv|]; [|reflexivity]. cbn [bind]. rewrite across_units.
  destruct (multiply_across_losses c (loss_mult kind) jv Regular) as [fv|]; [|reflexivity].
  cbn [bind res_map coefficient]. apply (jt_scale k c).
Qed.
Lemma units_factor_transpose kind c v :
  multiply_curv_factor_transpose kind (units_computer k c) v
  = res_map (map (lscale (sqrt k))) (multiply_curv_factor_transpose kind c v).
Proof.
  unfold multiply_curv_factor_transpose.
  replace (multiply_jacobian (units_computer k c) v) with (multiply_jacobian c v)
    by (unfold multiply_jacobian; cbn [units_computer c_losses c_jac]; rewrite map_map; reflexivity).
  destruct (multiply_jacobian c v) as [jv|]; [|reflexivity]. cbn [bind]. apply across_units.
Qed.
Lemma units_curvature_prop kind c signs :
  grads_curvature_prop kind (units_computer k c) signs
  = res_map (tscale (sqrt k)) (grads_curvature_prop kind c signs).
Proof.
  unfold grads_curvature_prop, multiply_curv_factor. rewrite across_units.
  destruct (multiply_across_losses c (loss_factor kind) signs Sqrt) as [bv|]; [|reflexivity].
  cbn [bind res_map coefficient]. apply (jt_scale (sqrt k) c).
Qed.

Lemma exact_one_units wrt l r jac i :
  exact_one wrt (l, k * r) jac i = res_map (tscale (sqrt k)) (exact_one wrt (l, r) jac i).
Proof.
  unfold exact_one. cbn [fst snd].
  destruct (multiply_fisher_factor_replicated_one_hot l [i]) as [[t|t u]|]; cbn [bind]; try reflexivity.
  destruct (Nat.eqb (length jac) 1); [|reflexivity]. cbn [res_map].
  rewrite sqrt_units, <- tscale_compose, <- grad_all_scale, tscale_zeros. reflexivity.
Qed.
Lemma mapM_res_map {A B C} (f : A -> res B) (g : A -> res C) (h : B -> C) l :
  (forall a, g a = res_map h (f a)) -> mapM g l = res_map (map h) (mapM f l).
Proof.
  intros H. induction l as [|a l IH]; [reflexivity|]. cbn [mapM]. rewrite H, IH.
  destruct (f a); [|reflexivity]. cbn [bind res_map]. destruct (mapM f l); reflexivity.
Qed.
Lemma units_exact kind wrt ls :
  grads_exact kind wrt (map (fun p => ((fst (fst p), k * snd (fst p)), snd p)) ls)
  = res_map (map (tscale (sqrt k))) (grads_exact kind wrt ls).
Proof.
  destruct kind; [|destruct ls; reflexivity]. unfold grads_exact.
  set (f := fun p : loss * R * list (list (list tensor)) =>
              mapM (exact_one wrt (fst p) (snd p)) (seq 0 (inner_width (fst (fst p))))).
  assert (M : mapM f (map (fun p => ((fst (fst p), k * snd (fst p)), snd p)) ls)
            = res_map (map (map (tscale (sqrt k)))) (mapM f ls)).
  { induction ls as [|[[l r] jac] ls IH]; [reflexivity|]. cbn [map mapM]. rewrite IH.
    assert (Q : f (l, k * r, jac) = res_map (map (tscale (sqrt k))) (f (l, r, jac))).
    { unfold f. cbn [fst snd]. apply mapM_res_map. intros i. apply exact_one_units. }
    cbn [fst snd]. rewrite Q. destruct (f (l, r, jac)); [|reflexivity]. cbn [bind res_map].
    destruct (mapM f ls); reflexivity. }
  rewrite M. destruct (mapM f ls) as [gss|]; [|reflexivity]. cbn [bind res_map].
  rewrite concat_map. reflexivity.
Qed.
End Units.
