(** Proofs for Curv/RegProps.v. *)
From Coq Require Import String List Arith Bool Reals Lra Lia.
From Verif.Base Require Import Py ListFacts.
From Verif.Curv Require Import Model Spec VecProofs LossProofs RegModel RegSpec.
Import ListNotations.
Open Scope list_scope.
Open Scope R_scope.

(* ------------------------------------------------------------------------ *)
(** * Values *)

Lemma normal_row var m t n : 0 < var -> length m = n -> length t = n ->
  rsum (map2 (fun m t => normal_log_prob m var t) m t)
  = - (/ (2 * var) * squared_distance m t) - INR n * (ln (sqrt var) + ln (2 * PI) / 2).
Proof.
  intros V. revert t n. induction m as [|x m IH]; intros [|y t] [|n] L M; try discriminate.
  - cbn. ring.
  - unfold squared_distance in *. rewrite !map2_cons. cbn [rsum fold_right].
    injection L as L. injection M as M.
    change (fold_right Rplus 0) with rsum in *.
    rewrite (IH t n L M), S_INR. unfold normal_log_prob. field. lra.
Qed.

Lemma normal_total var b n : 0 < var -> forall m t, shaped b n m -> shaped b n t ->
  evaluate_normal_mean m var t
  = / (2 * var) * total squared_distance m t + INR b * (INR n * (ln (sqrt var) + ln (2 * PI) / 2)).
Proof.
  intros V. unfold evaluate_normal_mean, total. induction b as [|b IH]; intros m t [Lm Fm] [Lt Ft].
  - destruct m; [|discriminate]. destruct t; [|discriminate]. cbn. ring.
  - destruct m as [|r m]; [discriminate|]. destruct t as [|s t]; [discriminate|].
    injection Lm as Lm. injection Lt as Lt.
    pose proof (Forall_inv Fm) as L1. pose proof (Forall_inv Ft) as L2.
    apply Forall_inv_tail in Fm. apply Forall_inv_tail in Ft. cbv beta in L1, L2.
    rewrite !map2_cons. cbn [rsum fold_right]. change (fold_right Rplus 0) with rsum.
    rewrite (normal_row var r s n V L1 L2).
    assert (E := IH m t (conj Lm Fm) (conj Lt Ft)). rewrite S_INR. lra.
Qed.

Lemma normal_value : forall b n var, 0 < var -> exists K, forall mean targets coeff,
    shaped b n mean -> shaped b n targets ->
    has_value (register_normal_predictive_distribution n mean (PyFloat var) (Some (Entries targets)) coeff)
              (coeff / (2 * var) * total squared_distance mean targets + coeff * K).
Proof.
  intros b n var V. exists (INR b * (INR n * (ln (sqrt var) + ln (2 * PI) / 2))).
  intros m t c Sm St. eexists. split; [reflexivity|].
  unfold eval_loss, evaluate. cbn [rg_loss lo_targets lo_class evaluate_on rg_coeff].
  rewrite (normal_total var b n V m t Sm St). f_equal. unfold Rdiv. ring.
Qed.

Lemma squared_error_value : forall b n, exists K, forall prediction targets coeff,
    shaped b n prediction -> shaped b n targets ->
    has_value (register_squared_error_loss n prediction (Some (Entries targets)) coeff)
              (coeff * (total squared_distance prediction targets + K)).
Proof.
  intros b n. exists (INR b * (INR n * (ln (sqrt (1 / 2)) + ln (2 * PI) / 2))).
  intros m t c Sm St. eexists. split; [reflexivity|].
  unfold eval_loss, evaluate. cbn [rg_loss lo_targets lo_class evaluate_on rg_coeff].
  rewrite (normal_total (1 / 2) b n ltac:(lra) m t Sm St). f_equal. f_equal. f_equal. field.
Qed.

Lemma pack_single (l : loss) t : natural l = true -> pack [l] [t] = Ok [V1 t].
Proof. destruct l; intros E; [reflexivity..|discriminate]. Qed.

Lemma normal_product k n m var c wrt jac v :
  multiply_curv k (mkComp [(NormalMean n m var, c)] wrt [jac]) v
  = Ok (grad_tensor (zeros wrt) jac (tscale (c / var) (map (map (fun d => tdot d v)) jac))).
Proof.
  unfold multiply_curv, multiply_jacobian. cbn [c_losses c_jac map fst].
  rewrite pack_single by reflexivity. cbn [bind].
  unfold multiply_across_losses. cbn [c_losses zip].
  assert (E : loss_mult k (NormalMean n m var) (V1 (map (map (fun g => tdot g v)) jac))
              = Ok (V1 (tscale (1 / var) (map (map (fun g => tdot g v)) jac)))) by (destruct k; reflexivity).
  cbn [mapM]. rewrite E. cbn [bind]. rewrite tscale_compose.
  unfold multiply_jacobian_transpose, flatten. cbn -[grad_tensor tscale zeros].
  replace (c * (1 / var)) with (c / var) by (unfold Rdiv; ring). reflexivity.
Qed.

Lemma normal_curvature : forall k n mean var targets coeff wrt jac v,
    (exists g, register_normal_predictive_distribution n mean (PyFloat var) targets coeff = Ok g /\
      curvature_product k g wrt [jac] v
      = Ok (grad_tensor (zeros wrt) jac (tscale (coeff / var) (map (map (fun d => tdot d v)) jac)))) /\
    (exists g, register_squared_error_loss n mean targets coeff = Ok g /\
      curvature_product k g wrt [jac] v
      = Ok (grad_tensor (zeros wrt) jac (tscale (2 * coeff) (map (map (fun d => tdot d v)) jac)))).
Proof.
  intros. split; (eexists; split; [reflexivity|]); unfold curvature_product;
    cbn [rg_loss lo_class curv_loss rg_coeff]; rewrite normal_product; [reflexivity|].
  replace (coeff / (1 / 2)) with (2 * coeff) by field. reflexivity.
Qed.

Lemma exp_sum_pos r k : (k < length r)%nat -> 0 < rsum (map exp r).
Proof.
  assert (N : forall r, 0 <= rsum (map exp r)).
  { induction r0 as [|x r0 IH]; cbn; [lra|]. change (fold_right Rplus 0) with rsum. pose proof (exp_pos x). lra. }
  destruct r as [|x r]; cbn; [lia|]. intros _. change (fold_right Rplus 0) with rsum.
  pose proof (exp_pos x). pose proof (N r). lra.
Qed.

Lemma cat_log_prob_ce r k : (k < length r)%nat -> - cat_log_prob r k = softmax_cross_entropy r k.
Proof.
  intros K. unfold cat_log_prob, softmax_cross_entropy. pose proof (exp_sum_pos r k K).
  unfold Rdiv. rewrite ln_mult; [|apply exp_pos|now apply Rinv_0_lt_compat].
  rewrite ln_exp, ln_Rinv by assumption. lra.
Qed.

Lemma neg_total {A} (f g : row -> A -> R) (P : row -> A -> Prop) z t :
  (forall r a, P r a -> - f r a = g r a) -> Forall2 P z t ->
  - rsum (map2 f z t) = total g z t.
Proof.
  intros E F. unfold total. induction F as [|r a z t Pra F IH]; [cbn; ring|].
  rewrite !map2_cons. cbn [rsum fold_right]. change (fold_right Rplus 0) with rsum.
  rewrite <- (E r a Pra). lra.
Qed.

Lemma labelled b n z ks : shaped b n z -> labels b n ks -> Forall2 (fun r k => length r = n /\ (k < n)%nat) z ks.
Proof.
  intros [Lz Fz] [Lk Fk]. revert z ks Lz Fz Lk Fk. induction b as [|b IH]; intros [|r z] [|k ks] Lz Fz Lk Fk; try discriminate.
  - constructor.
  - inversion Fz; inversion Fk; subst. constructor; [auto|]. apply IH; auto.
Qed.

Lemma paired b n (z t : tensor) : shaped b n z -> shaped b n t -> Forall2 (fun r s => length r = length s) z t.
Proof.
  intros [Lz Fz] [Lk Fk]. revert z t Lz Fz Lk Fk. induction b as [|b IH]; intros [|r z] [|k ks] Lz Fz Lk Fk; try discriminate.
  - constructor.
  - inversion Fz; inversion Fk; subst. constructor; [congruence|]. apply IH; auto.
Qed.

Lemma softmax_value : forall b n logits ks coeff, shaped b n logits -> labels b n ks ->
    has_value (register_softmax_cross_entropy_loss n logits (Some (Labels ks)) coeff)
              (coeff * total softmax_cross_entropy logits ks).
Proof.
  intros b n z ks c Sz Lk. eexists. split; [reflexivity|].
  unfold eval_loss, evaluate. cbn [rg_loss new_categorical lo_targets lo_class evaluate_on rg_coeff].
  do 2 f_equal. unfold evaluate_categorical.
  apply (neg_total _ _ _ z ks (fun r k (H : length r = n /\ (k < n)%nat) =>
           cat_log_prob_ce r k ltac:(destruct H; lia))), (labelled b n z ks Sz Lk).
Qed.

Lemma bern_ce x z : - bern_log_prob_at x z = sigmoid_cross_entropy x z.
Proof.
  unfold bern_log_prob_at, sigmoid_cross_entropy.
  destruct (Rle_dec 0 x) as [X|X].
  - rewrite Rmax_left, Rabs_right by lra.
    replace (1 + exp x) with (exp x * (1 + exp (- x))).
    + rewrite ln_mult; [|apply exp_pos|pose proof (exp_pos (- x)); lra]. rewrite ln_exp. lra.
    + rewrite Rmult_plus_distr_l, <- exp_plus, Rplus_opp_r, exp_0. lra.
  - rewrite Rmax_right, Rabs_left by lra. rewrite Ropp_involutive. lra.
Qed.

Lemma bern_bce x z : - bern_log_prob_at x z = binary_cross_entropy x z.
Proof.
  unfold bern_log_prob_at, binary_cross_entropy.
  pose proof (exp_pos x) as P. pose proof (exp_pos (- x)) as Q.
  assert (PQ : exp x * exp (- x) = 1) by now rewrite <- exp_plus, Rplus_opp_r, exp_0.
  replace (1 - 1 / (1 + exp (- x))) with (/ (1 + exp x)).
  2: { apply Rmult_eq_reg_l with ((1 + exp x) * (1 + exp (- x))); [|apply Rmult_integral_contrapositive_currified; lra].
       field_simplify; lra. }
  replace (1 / (1 + exp (- x))) with (exp x * / (1 + exp x)).
  2: { apply Rmult_eq_reg_l with ((1 + exp x) * (1 + exp (- x))); [|apply Rmult_integral_contrapositive_currified; lra].
       field_simplify; lra. }
  rewrite ln_mult; [|lra|apply Rinv_0_lt_compat; lra]. rewrite ln_exp, ln_Rinv by lra. ring.
Qed.

Lemma row_neg f (g : R -> R -> R) r s : (forall x z, - f x z = g x z) -> - rsum (map2 f r s) = rsum (map2 g r s).
Proof.
  intros E. revert s. induction r as [|x r IH]; intros [|y s]; try (cbn; ring).
  rewrite !map2_cons. cbn [rsum fold_right]. change (fold_right Rplus 0) with rsum.
  rewrite <- IH, <- E. ring.
Qed.

Lemma sigmoid_value : forall b n logits targets coeff, shaped b n logits -> shaped b n targets ->
    has_value (register_sigmoid_cross_entropy_loss n logits (Some (Entries targets)) coeff)
              (coeff * total (fun x z => rsum (map2 sigmoid_cross_entropy x z)) logits targets) /\
    has_value (register_sigmoid_cross_entropy_loss n logits (Some (Entries targets)) coeff)
              (coeff * total (fun x z => rsum (map2 binary_cross_entropy x z)) logits targets).
Proof.
  intros b n z t c Sz St. pose proof (paired b n z t Sz St) as F.
  split; (eexists; split; [reflexivity|]);
    unfold eval_loss, evaluate; cbn [rg_loss new_multi_bernoulli lo_targets lo_class evaluate_on rg_coeff];
    do 2 f_equal; eapply neg_total; try exact F; intros r s _; apply row_neg.
  - exact bern_ce.
  - exact bern_bce.
Qed.

(* ------------------------------------------------------------------------ *)
(** * Aliases, batches *)

Lemma aliases : forall n outputs targets coeff,
    indistinguishable (register_softmax_cross_entropy_loss n outputs targets coeff)
                      (register_categorical_predictive_distribution n outputs targets coeff) /\
    indistinguishable (register_sigmoid_cross_entropy_loss n outputs targets coeff)
                      (register_multi_bernoulli_predictive_distribution n outputs targets coeff) /\
    indistinguishable (register_squared_error_loss n outputs targets coeff)
                      (register_normal_predictive_distribution n outputs default_var targets coeff).
Proof. intros. split; [|split]; split; reflexivity. Qed.

Lemma map2_app {A B C} (f : A -> B -> C) l l' m m' : length l = length m ->
  map2 f (l ++ l') (m ++ m') = map2 f l m ++ map2 f l' m'.
Proof.
  revert m. induction l as [|a l IH]; intros [|b m] L; try discriminate; [reflexivity|].
  injection L as L. rewrite <- !app_comm_cons, !map2_cons, IH by exact L. reflexivity.
Qed.

Lemma has_value_eq g x y : has_value (Ok g) x -> eval_loss g = Value y -> x = y.
Proof. intros (g' & E & V) W. injection E as <-. congruence. Qed.

Lemma has_value_fun r x y : has_value r x -> has_value r y -> x = y.
Proof. intros (g & E & V) (g' & E' & V'). congruence. Qed.

Lemma sums_over_cases : forall n coeff,
    (forall p p' t t' x x', length p = length t ->
       has_value (register_squared_error_loss n p (Some (Entries t)) coeff) x ->
       has_value (register_squared_error_loss n p' (Some (Entries t')) coeff) x' ->
       has_value (register_squared_error_loss n (p ++ p') (Some (Entries (t ++ t'))) coeff) (x + x')) /\
    (forall p p' t t' x x', length p = length t ->
       has_value (register_sigmoid_cross_entropy_loss n p (Some (Entries t)) coeff) x ->
       has_value (register_sigmoid_cross_entropy_loss n p' (Some (Entries t')) coeff) x' ->
       has_value (register_sigmoid_cross_entropy_loss n (p ++ p') (Some (Entries (t ++ t'))) coeff) (x + x')) /\
    (forall p p' t t' x x', length p = length t ->
       has_value (register_softmax_cross_entropy_loss n p (Some (Labels t)) coeff) x ->
       has_value (register_softmax_cross_entropy_loss n p' (Some (Labels t')) coeff) x' ->
       has_value (register_softmax_cross_entropy_loss n (p ++ p') (Some (Labels (t ++ t'))) coeff) (x + x')).
Proof.
  intros n c. split; [|split]; intros p p' t t' x x' L H H';
    rewrite (has_value_eq _ x _ H eq_refl), (has_value_eq _ x' _ H' eq_refl);
    (eexists; split; [reflexivity|]); unfold eval_loss, evaluate;
    cbn [rg_loss new_categorical new_multi_bernoulli lo_targets lo_class evaluate_on rg_coeff]; f_equal;
    unfold evaluate_normal_mean, evaluate_categorical; rewrite map2_app by exact L; rewrite rsum_app; ring.
Qed.

(* ------------------------------------------------------------------------ *)
(** * Temperatures *)

Lemma tscale_product k n m n' m' var var' c c' wrt jac v : c / var = c' / var' ->
  multiply_curv k (mkComp [(NormalMean n m var, c)] wrt jac) v
  = multiply_curv k (mkComp [(NormalMean n' m' var', c')] wrt jac) v.
Proof.
  intros E. destruct jac as [|j [|j' jac]].
  - reflexivity.
  - rewrite !normal_product, E. reflexivity.
  - reflexivity.
Qed.

Lemma normal_temperature : forall b n var c, 0 < var -> 0 < c ->
    (exists K, forall mean targets x, shaped b n mean -> shaped b n targets ->
       has_value (register_normal_predictive_distribution n mean (PyFloat (var / c)) (Some (Entries targets)) 1) x ->
       has_value (register_normal_predictive_distribution n mean (PyFloat var) (Some (Entries targets)) c) (x + K)) /\
    (forall mean targets k wrt jac v, exists g g',
       register_normal_predictive_distribution n mean (PyFloat var) targets c = Ok g /\
       register_normal_predictive_distribution n mean (PyFloat (var / c)) targets 1 = Ok g' /\
       curvature_product k g wrt jac v = curvature_product k g' wrt jac v).
Proof.
  intros b n var c V C. split.
  - destruct (normal_value b n var V) as [K HK].
    destruct (normal_value b n (var / c) ltac:(now apply Rdiv_lt_0_compat)) as [K' HK'].
    exists (c * K - K'). intros m t x Sm St H.
    specialize (HK m t c Sm St). specialize (HK' m t 1 Sm St).
    pose proof (has_value_fun _ _ _ H HK') as X.
    subst x. replace (1 / (2 * (var / c)) * total squared_distance m t + 1 * K' + (c * K - K'))
      with (c / (2 * var) * total squared_distance m t + c * K) by (field; lra). exact HK.
  - intros. do 2 eexists. split; [reflexivity|]. split; [reflexivity|].
    unfold curvature_product. cbn [rg_loss lo_class curv_loss rg_coeff]. apply tscale_product. field. lra.
Qed.

(** log(1 + exp(-x)) is positive and at most exp(-x), which has no positive lower bound. *)
Definition sp (x : R) : R := ln (1 + exp (- x)).
Lemma sp_pos x : 0 < sp x.
Proof. unfold sp. rewrite <- ln_1. apply ln_increasing; [lra|]. pose proof (exp_pos (- x)). lra. Qed.
Lemma ln_le_mono x y : 0 < x -> x <= y -> ln x <= ln y.
Proof. intros X [L| ->]; [left; now apply ln_increasing|lra]. Qed.
Lemma sp_le x : sp x <= exp (- x).
Proof.
  unfold sp. pose proof (exp_pos (- x)) as E. rewrite <- (ln_exp (exp (- x))) at 2.
  apply ln_le_mono; [lra|]. pose proof (exp_ineq1 (exp (- x)) ltac:(lra)). lra.
Qed.
Lemma exp_neg_small M : 0 < M -> exp (- M) * (1 + M) < 1.
Proof.
  intros H. pose proof (exp_ineq1 M ltac:(lra)) as I. pose proof (exp_pos (- M)).
  assert (E : exp (- M) * exp M = 1) by now rewrite <- exp_plus, Rplus_opp_l, exp_0.
  rewrite <- E. apply Rmult_lt_compat_l; lra.
Qed.

Lemma no_temperature c T K : 0 < c -> 0 < T -> (forall x, c * sp x = sp (x / T) + K) -> c = 1.
Proof.
  intros C HT H.
  assert (K0 : K = 0).
  { destruct (Req_dec K 0) as [|N]; [assumption|exfalso].
    pose proof (Rabs_pos_lt K N) as A. set (M := (c + 1) / Rabs K).
    assert (HM : 0 < M) by (apply Rdiv_lt_0_compat; lra).
    specialize (H (M * Rmax 1 T)).
    pose proof (Rmax_l 1 T) as M1. pose proof (Rmax_r 1 T) as MT.
    assert (I1 : exp (- (M * Rmax 1 T)) <= exp (- M)).
    { assert (L : - (M * Rmax 1 T) <= - M) by nra. destruct L as [L| ->]; [left; now apply exp_increasing|lra]. }
    assert (I2 : exp (- (M * Rmax 1 T / T)) <= exp (- M)).
    { assert (L : M <= M * Rmax 1 T / T).
      { apply Rmult_le_reg_r with T; [assumption|]. replace (M * Rmax 1 T / T * T) with (M * Rmax 1 T) by (field; lra).
        apply Rmult_le_compat_l; lra. }
      assert (L' : - (M * Rmax 1 T / T) <= - M) by lra.
      destruct L' as [L'| ->]; [left; now apply exp_increasing|lra]. }
    pose proof (sp_pos (M * Rmax 1 T)). pose proof (sp_le (M * Rmax 1 T)).
    pose proof (sp_pos (M * Rmax 1 T / T)). pose proof (sp_le (M * Rmax 1 T / T)).
    pose proof (exp_neg_small M HM) as Sm. pose proof (exp_pos (- M)) as Ep.
    assert (B : Rabs K <= (c + 1) * exp (- M)) by (apply Rabs_le; nra).
    assert (Q : Rabs K * M = c + 1) by (unfold M; field; lra).
    nra. }
  subst K. specialize (H 0). replace (0 / T) with 0 in H by (field; lra).
  pose proof (sp_pos 0). nra.
Qed.

Lemma bernoulli_not_temperature : forall c T K, 0 < c -> 0 < T ->
    (forall logit k x,
       has_value (register_multi_bernoulli_predictive_distribution 1 [[logit / T]] (Some (Entries [[k]])) 1) x ->
       has_value (register_multi_bernoulli_predictive_distribution 1 [[logit]] (Some (Entries [[k]])) c) (x + K)) ->
    c = 1.
Proof.
  intros c T K C HT H. apply (no_temperature c T K C HT). intros x.
  specialize (H (- x) 0 (sp (x / T))).
  assert (V : forall y c, eval_loss (mkReg (new_multi_bernoulli 1 [[y]] (Some (Entries [[0]]))) "multi_bernoulli_predictive_distribution"%string c)
                        = Value (c * sp (- y))).
  { intros y d. unfold eval_loss, evaluate. cbn [rg_loss new_multi_bernoulli lo_targets lo_class evaluate_on rg_coeff].
    do 2 f_equal. unfold map2, sp, bern_log_prob_at. cbn. rewrite Ropp_involutive. ring. }
  destruct H as (g & E & W).
  - eexists. split; [reflexivity|]. rewrite V. f_equal. replace (- (- x / T)) with (x / T) by (unfold Rdiv; ring). ring.
  - injection E as <-. rewrite V, Ropp_involutive in W. now injection W.
Qed.

Lemma categorical_not_temperature : forall c T K, 0 < c -> 0 < T ->
    (forall logits k x, shaped 1 2 logits -> (k < 2)%nat ->
       has_value (register_categorical_predictive_distribution 2 (tscale (/ T) logits) (Some (Labels [k])) 1) x ->
       has_value (register_categorical_predictive_distribution 2 logits (Some (Labels [k])) c) (x + K)) ->
    c = 1.
Proof.
  intros c T K C HT H. apply (no_temperature c T K C HT). intros x.
  assert (V : forall y c, eval_loss (mkReg (new_categorical 2 [[0; y]] (Some (Labels [0%nat]))) "categorical_predictive_distribution"%string c)
                        = Value (c * sp (- y))).
  { intros y d. unfold eval_loss, evaluate. cbn [rg_loss new_categorical lo_targets lo_class evaluate_on rg_coeff].
    do 2 f_equal. unfold evaluate_categorical, map2, sp, cat_log_prob. cbn. rewrite Ropp_involutive, exp_0.
    replace (1 + (exp y + 0)) with (1 + exp y) by ring. ring. }
  destruct (H [[0; - x]] 0%nat (sp (x / T))) as (g & E & W).
  - split; [reflexivity|]. repeat constructor.
  - lia.
  - eexists. split; [reflexivity|].
    replace (tscale (/ T) [[0; - x]]) with [[0; - (x / T)]].
    + rewrite V, Ropp_involutive. f_equal. ring.
    + cbn. unfold Rdiv. do 3 f_equal; [ring|]. f_equal. ring.
  - injection E as <-. rewrite V, Ropp_involutive in W. now injection W.
Qed.

(* ------------------------------------------------------------------------ *)
(** * Targets *)

Lemma not_no_targets o t c st : eval_loss (mkReg (mkLoss o (Some t)) st c) <> NoTargets.
Proof. unfold eval_loss, evaluate. cbn. destruct (evaluate_on o t); discriminate. Qed.

Lemma targets_optional : forall k n outputs var t coeff r r0,
    In (r, r0)
      [ (register_categorical_predictive_distribution n outputs (Some t) coeff,
         register_categorical_predictive_distribution n outputs None coeff);
        (register_softmax_cross_entropy_loss n outputs (Some t) coeff,
         register_softmax_cross_entropy_loss n outputs None coeff);
        (register_normal_predictive_distribution n outputs (PyFloat var) (Some t) coeff,
         register_normal_predictive_distribution n outputs (PyFloat var) None coeff);
        (register_squared_error_loss n outputs (Some t) coeff,
         register_squared_error_loss n outputs None coeff);
        (register_multi_bernoulli_predictive_distribution n outputs (Some t) coeff,
         register_multi_bernoulli_predictive_distribution n outputs None coeff);
        (register_sigmoid_cross_entropy_loss n outputs (Some t) coeff,
         register_sigmoid_cross_entropy_loss n outputs None coeff) ] ->
    exists g g0, r = Ok g /\ r0 = Ok g0 /\ eval_loss g <> NoTargets /\ eval_loss g0 = NoTargets /\
      forall wrt jac v, curvature_product k g wrt jac v = curvature_product k g0 wrt jac v.
Proof.
  intros k n o var t c r r0 H. cbn [In] in H.
  repeat destruct H as [H|H]; try contradiction; injection H as <- <-;
    (do 2 eexists; split; [reflexivity|]; split; [reflexivity|]; split; [apply not_no_targets|]; split; [reflexivity|]);
    intros; reflexivity.
Qed.

Lemma dot_zero_l n : forall r, dot (repeat 0 n) r = 0.
Proof. induction n as [|n IH]; intros [|x r]; try reflexivity. cbn [repeat]. rewrite dot_cons, IH. ring. Qed.

Lemma dot_one_hot r : forall n k, length r = n -> (k < n)%nat -> dot (one_hot n k) r = nth k r 0.
Proof.
  induction r as [|x r IH]; intros [|n] k L H; try discriminate; [lia|]. injection L as L.
  destruct k as [|k].
  - rewrite one_hot_0, dot_cons, dot_zero_l. cbn. ring.
  - rewrite one_hot_S, dot_cons. rewrite (IH n k L ltac:(lia)). cbn. ring.
Qed.

Lemma onehot_class : forall b n logits ks, shaped b n logits -> labels b n ks ->
    evaluate (new_onehot_categorical n logits (Some (Entries (map (one_hot n) ks))))
    = evaluate (new_categorical n logits (Some (Labels ks))).
Proof.
  intros b n z ks Sz Lk. unfold evaluate. cbn [new_onehot_categorical new_categorical lo_targets lo_class evaluate_on].
  f_equal. unfold evaluate_categorical. f_equal. f_equal.
  pose proof (labelled b n z ks Sz Lk) as F. clear Sz Lk. induction F as [|r k z ks [L H] F IH]; [reflexivity|].
  cbn [map]. rewrite !map2_cons, IH. f_equal. unfold onehot_log_prob, cat_log_prob.
  rewrite dot_one_hot; [|now rewrite map_length|exact H].
  erewrite nth_indep by (rewrite map_length; lia).
  rewrite (map_nth (fun x => x - ln (rsum (map exp r)))). reflexivity.
Qed.

Lemma reg_instance :
  shaped 2 2 [[1; 2]; [3; 4]] /\ shaped 2 2 [[0; 0]; [1; 1]] /\ labels 2 2 [1; 0]%nat /\
  total squared_distance [[1; 2]; [3; 4]] [[0; 0]; [1; 1]] = 18 /\
  total softmax_cross_entropy [[0; 0]; [5; 5]] [1; 0]%nat = 2 * ln 2 /\
  has_value (register_softmax_cross_entropy_loss 2 [[0; 0]; [5; 5]] (Some (Labels [1; 0]%nat)) 3) (6 * ln 2).
Proof.
  assert (T : total softmax_cross_entropy [[0; 0]; [5; 5]] [1; 0]%nat = 2 * ln 2).
  { unfold total, softmax_cross_entropy, map2. cbn. pose proof (exp_pos 5).
    replace (exp 0 / (exp 0 + (exp 0 + 0))) with (/ 2) by (rewrite exp_0; field).
    replace (exp 5 / (exp 5 + (exp 5 + 0))) with (/ 2) by (field; lra).
    rewrite ln_Rinv by lra. ring. }
  split; [split; [reflexivity|repeat constructor]|]. split; [split; [reflexivity|repeat constructor]|].
  split; [split; [reflexivity|repeat constructor]|].
  split; [unfold total, squared_distance, map2; cbn; lra|]. split; [exact T|].
  replace (6 * ln 2) with (3 * total softmax_cross_entropy [[0; 0]; [5; 5]] [1; 0]%nat) by (rewrite T; ring).
  apply (softmax_value 2 2); split; try reflexivity; repeat constructor.
Qed.
