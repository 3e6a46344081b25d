(** The moments of the normal distribution: the Gaussian integral, and the expectation of
    a polynomial of degree four. *)
From Coq Require Import Reals Lra Lia.
From Verif.Curv Require Model Spec.
From Coquelicot Require Import Coquelicot.
Open Scope R_scope.

Definition ee (t : R) : R := exp (- t * t).
Definition J (x : R) : R := RInt ee 0 x.

Lemma ee_cont x : continuous ee x.
Proof. unfold ee. apply (ex_derive_continuous (fun t => exp (- t * t))). auto_derive. auto. Qed.
Lemma ee_int a b : ex_RInt ee a b.
Proof. apply (ex_RInt_continuous (V := R_CompleteNormedModule)). intros; apply ee_cont. Qed.
Lemma J_deriv (x : R) : is_derive J x (ee x).
Proof.
  apply (is_derive_RInt ee J 0 x); [|apply ee_cont].
  exists (mkposreal 1 Rlt_0_1). intros y _. apply (RInt_correct (V := R_CompleteNormedModule) ee 0 y), ee_int.
Qed.

Definition kk (x t : R) : R := exp (- (x * x * (1 + t * t))) / (1 + t * t).
Definition K (x : R) : R := RInt (fun t => kk x t) 0 1.

Lemma sq1 t : 1 + t * t <> 0. Proof. nra. Qed.
Lemma sq1p t : 0 < 1 + t * t. Proof. nra. Qed.

Lemma kk_deriv (x t : R) : is_derive (fun u => kk u t) x (- 2 * x * exp (- (x * x * (1 + t * t)))).
Proof. unfold kk. auto_derive; [exact I|]. field. apply sq1. Qed.

Lemma kk_int x : ex_RInt (fun t => kk x t) 0 1.
Proof.
  apply (ex_RInt_continuous (V := R_CompleteNormedModule)). intros t _. unfold kk.
  apply (ex_derive_continuous (fun t => exp (- (x * x * (1 + t * t))) / (1 + t * t))). auto_derive. apply sq1.
Qed.

Lemma K_deriv (x : R) : is_derive K x (- 2 * exp (- x * x) * J x).
Proof.
  replace (- 2 * exp (- x * x) * J x) with (RInt (fun t => Derive (fun u => kk u t) x) 0 1).
  - apply (is_derive_RInt_param kk 0 1 x).
    + exists (mkposreal 1 Rlt_0_1). intros y _ t _. eexists. apply kk_deriv.
    + intros t _.
      apply continuity_2d_pt_ext with (fun u v => - 2 * u * exp (- (u * u * (1 + v * v)))).
      { intros u v. symmetry. apply is_derive_unique, kk_deriv. }
      apply (continuity_2d_pt_mult (fun u v => -2 * u) (fun u v => exp (- (u * u * (1 + v * v))))).
      * apply (continuity_2d_pt_mult (fun u v => -2) (fun u v => u)); [apply continuity_2d_pt_const|apply continuity_2d_pt_id1].
      * apply (continuity_1d_2d_pt_comp exp (fun u v => - (u * u * (1 + v * v)))).
        { apply derivable_continuous_pt, derivable_pt_exp. }
        apply (continuity_2d_pt_opp (fun u v => u * u * (1 + v * v))).
        apply (continuity_2d_pt_mult (fun u v => u * u) (fun u v => 1 + v * v)).
        { apply continuity_2d_pt_mult; apply continuity_2d_pt_id1. }
        apply (continuity_2d_pt_plus (fun u v => 1) (fun u v => v * v)); [apply continuity_2d_pt_const|].
        apply continuity_2d_pt_mult; apply continuity_2d_pt_id2.
    + exists (mkposreal 1 Rlt_0_1). intros y _. apply kk_int.
  - unfold J.
    rewrite (RInt_ext _ (fun t => scal (- 2 * exp (- x * x)) (scal x (ee (x * t + 0))))).
    + apply is_RInt_unique. apply (is_RInt_scal (V := R_NormedModule) (fun t => scal x (ee (x * t + 0))) 0 1 (- 2 * exp (- x * x))).
      apply (is_RInt_comp_lin (V := R_NormedModule) ee x 0 0 1).
      replace (x * 0 + 0) with 0 by ring. rewrite Rmult_1_r, Rplus_0_r.
      apply (RInt_correct (V := R_CompleteNormedModule) ee 0 x), ee_int.
    + intros t _. transitivity (- 2 * x * exp (- (x * x * (1 + t * t)))); [apply (is_derive_unique (fun u => kk u t) x), kk_deriv|]. unfold scal; simpl. unfold mult; simpl. unfold ee.
      replace (- (x * x * (1 + t * t))) with (- x * x + - (x * t + 0) * (x * t + 0)) by ring.
      rewrite exp_plus. ring.
Qed.

Lemma J_0 : J 0 = 0. Proof. exact (RInt_point (V := R_CompleteNormedModule) 0 ee). Qed.
Lemma K_0 : K 0 = PI / 4.
Proof.
  unfold K. rewrite (RInt_ext _ (fun t => / (1 + t * t))).
  2: { intros t _. unfold kk. replace (- (0 * 0 * (1 + t * t))) with 0 by ring. rewrite exp_0. apply Rmult_1_l. }
  apply is_RInt_unique. replace (PI / 4) with (minus (atan 1) (atan 0)).
  - apply (is_RInt_derive atan (fun t => / (1 + t * t))).
    + intros t _. apply is_derive_Reals. replace (t * t) with (Rsqr t) by reflexivity.
      replace (/ (1 + Rsqr t)) with (/ (1 + t ^ 2)) by (unfold Rsqr; f_equal; ring). apply derivable_pt_lim_atan.
    + intros t _. apply (ex_derive_continuous (fun t => / (1 + t * t))). auto_derive. apply sq1.
  - rewrite atan_0, atan_1. unfold minus, plus, opp; simpl. ring.
Qed.


Lemma JK x : 0 <= x -> J x * J x + K x = PI / 4.
Proof.
  intros X. rewrite <- K_0. replace (K 0) with (J 0 * J 0 + K 0) by (rewrite J_0; ring).
  destruct X as [X| <-]; [|reflexivity]. symmetry.
  apply (eq_is_derive (fun x => J x * J x + K x) 0 x); [|exact X]. intros t _.
  evar_last.
  - apply (is_derive_plus (fun x => J x * J x) K t).
    + apply (is_derive_mult J J t); [apply J_deriv|apply J_deriv|]. intros n m; apply Rmult_comm.
    + apply K_deriv.
  - unfold plus, mult, zero; simpl. unfold ee. ring.
Qed.

Lemma K_bound x : 0 <= K x <= exp (- x * x).
Proof.
  assert (B : forall t, 0 <= kk x t <= exp (- x * x)).
  { intros t. unfold kk. pose proof (sq1p t). pose proof (exp_pos (- (x * x * (1 + t * t)))) as E.
    assert (I : 0 < / (1 + t * t) <= 1).
    { split; [now apply Rinv_0_lt_compat|]. rewrite <- Rinv_1. apply Rinv_le_contravar; nra. }
    assert (L : exp (- (x * x * (1 + t * t))) <= exp (- x * x)).
    { assert (Q : - (x * x * (1 + t * t)) <= - x * x) by nra. destruct Q as [Q| ->]; [left; now apply exp_increasing|lra]. }
    unfold Rdiv. split; nra. }
  split.
  - replace 0 with (RInt (fun _ => 0) 0 1).
    + apply RInt_le; [lra|apply ex_RInt_const|apply kk_int|]. intros t _. apply B.
    + rewrite RInt_const. unfold scal; simpl. unfold mult; simpl. ring.
  - replace (exp (- x * x)) with (RInt (fun _ => exp (- x * x)) 0 1).
    + apply RInt_le; [lra|apply kk_int|apply ex_RInt_const|]. intros t _. apply B.
    + rewrite RInt_const. unfold scal; simpl. unfold mult; simpl. ring.
Qed.

Lemma J_pos x : 0 <= x -> 0 <= J x.
Proof.
  intros X. unfold J. replace 0 with (RInt (fun _ => 0) 0 x) at 1.
  - apply RInt_le; [exact X|apply ex_RInt_const|apply ee_int|]. intros t _. unfold ee. left. apply exp_pos.
  - rewrite RInt_const. unfold scal; simpl. unfold mult; simpl. ring.
Qed.

Lemma J_odd x : J (- x) = - J x.
Proof.
  unfold J. apply is_RInt_unique.
  apply (is_RInt_ext (fun t => scal (-1) (scal (-1) (ee (-1 * t + 0))))).
  { intros t _. unfold scal; simpl. unfold mult; simpl. unfold ee.
    replace (- (-1 * t + 0) * (-1 * t + 0)) with (- t * t) by ring. ring. }
  replace (- RInt ee 0 x) with (scal (-1) (RInt ee 0 x)) by (unfold scal; simpl; unfold mult; simpl; ring).
  apply (is_RInt_scal (V := R_NormedModule)).
  apply (is_RInt_comp_lin (V := R_NormedModule) ee (-1) 0 0 (- x)).
  replace (-1 * 0 + 0) with 0 by ring. replace (-1 * - x + 0) with x by ring.
  apply (RInt_correct (V := R_CompleteNormedModule) ee 0 x), ee_int.
Qed.

(** exp(- x^2) beats every power below four. *)
Lemma ee_quartic x : x * x * (x * x) * ee x <= 4.
Proof.
  unfold ee. set (z := x * x). assert (Z : 0 <= z) by (unfold z; nra).
  pose proof (exp_ineq1_le (z / 2)) as I. pose proof (exp_pos (- x * x)) as P.
  assert (Q : exp (- x * x) * (exp (z / 2) * exp (z / 2)) = 1).
  { rewrite <- !exp_plus. replace (- x * x + (z / 2 + z / 2)) with 0 by (unfold z; field). apply exp_0. }
  assert (M : z * z <= 4 * (exp (z / 2) * exp (z / 2))) by nra. nra.
Qed.

Lemma J_lim : forall eps, 0 < eps -> exists M, forall x, M < x -> Rabs (J x - sqrt PI / 2) < eps.
Proof.
  intros eps E. pose proof PI_RGT_0 as P. pose proof (sqrt_lt_R0 PI P) as SP. pose proof (sqrt_sqrt PI ltac:(lra)) as SS.
  exists (Rmax 1 (8 / (eps * sqrt PI))). intros x X.
  assert (X1 : 1 < x) by (pose proof (Rmax_l 1 (8 / (eps * sqrt PI))); lra).
  assert (X2 : 8 / (eps * sqrt PI) < x) by (pose proof (Rmax_r 1 (8 / (eps * sqrt PI))); lra).
  pose proof (JK x ltac:(lra)) as Q. pose proof (K_bound x) as B. pose proof (J_pos x ltac:(lra)) as Jp.
  pose proof (ee_quartic x) as F. unfold ee in F.
  assert (Kx : K x * x <= 4). { pose proof (exp_pos (- x * x)) as Ep.
    assert (X2' : 1 <= x * x) by nra. assert (X3 : 1 <= x * x * x) by nra.
    assert (X4 : x <= x * x * (x * x)) by nra.
    apply Rle_trans with (exp (- x * x) * x); [apply Rmult_le_compat_r; lra|].
    apply Rle_trans with (exp (- x * x) * (x * x * (x * x))); [apply Rmult_le_compat_l; lra|lra]. }
  assert (W : 8 < eps * sqrt PI * x).
  { apply Rmult_lt_reg_r with (/ (eps * sqrt PI)); [apply Rinv_0_lt_compat; nra|].
    replace (eps * sqrt PI * x * / (eps * sqrt PI)) with x by (field; nra). exact X2. }
  assert (D : (sqrt PI / 2 - J x) * (sqrt PI / 2 + J x) = K x) by nra.
  assert (0 <= sqrt PI / 2 - J x) by nra.
  assert (U : (sqrt PI / 2 - J x) * (sqrt PI / 2) <= K x) by nra.
  rewrite Rabs_minus_sym, Rabs_right by lra.
  apply Rmult_lt_reg_r with (sqrt PI / 2 * x); [nra|]. nra.
Qed.

Lemma cubic_bound q0 q1 q2 q3 y : 1 <= y ->
  Rabs ((q0 + q1 * y + q2 * (y * y) + q3 * (y * y * y)) * ee y) * y <= 4 * (Rabs q0 + Rabs q1 + Rabs q2 + Rabs q3).
Proof.
  intros Y. pose proof (ee_quartic y) as F. pose proof (exp_pos (- y * y)) as E. change (exp (- y * y)) with (ee y) in E.
  set (S := Rabs q0 + Rabs q1 + Rabs q2 + Rabs q3).
  assert (S0 : 0 <= S) by (unfold S; pose proof (Rabs_pos q0); pose proof (Rabs_pos q1); pose proof (Rabs_pos q2); pose proof (Rabs_pos q3); lra).
  assert (Y2 : 1 <= y * y) by nra. assert (Y3 : y * y <= y * y * y) by nra. assert (Y1 : y <= y * y) by nra.
  assert (P : Rabs (q0 + q1 * y + q2 * (y * y) + q3 * (y * y * y)) <= S * (y * y * y)).
  { eapply Rle_trans; [apply Rabs_triang|]. eapply Rle_trans; [apply Rplus_le_compat_r, Rabs_triang|].
    eapply Rle_trans; [apply Rplus_le_compat_r, Rplus_le_compat_r, Rabs_triang|].
    rewrite !Rabs_mult, (Rabs_right y) by lra. unfold S.
    pose proof (Rabs_pos q0); pose proof (Rabs_pos q1); pose proof (Rabs_pos q2); pose proof (Rabs_pos q3).
    assert (Rabs q0 <= Rabs q0 * (y * y * y)) by nra.
    assert (Rabs q1 * y <= Rabs q1 * (y * y * y)) by (apply Rmult_le_compat_l; lra).
    assert (Rabs q2 * (y * y) <= Rabs q2 * (y * y * y)) by (apply Rmult_le_compat_l; lra). lra. }
  rewrite Rabs_mult, (Rabs_right (ee y)) by lra.
  apply Rle_trans with (S * (y * y * y) * ee y * y).
  - apply Rmult_le_compat_r; [lra|]. apply Rmult_le_compat_r; lra.
  - replace (S * (y * y * y) * ee y * y) with (S * (y * y * (y * y) * ee y)) by ring.
    replace (4 * S) with (S * 4) by ring. apply Rmult_le_compat_l; assumption.
Qed.

Lemma tail a q0 q1 q2 q3 eps : 0 < eps -> exists M, forall y, M < y ->
  Rabs (a * J y + (q0 + q1 * y + q2 * (y * y) + q3 * (y * y * y)) * ee y - a * (sqrt PI / 2)) < eps.
Proof.
  intros E. set (S := Rabs q0 + Rabs q1 + Rabs q2 + Rabs q3).
  assert (S0 : 0 <= S) by (unfold S; pose proof (Rabs_pos q0); pose proof (Rabs_pos q1); pose proof (Rabs_pos q2); pose proof (Rabs_pos q3); lra).
  pose proof (Rabs_pos a) as A0.
  destruct (J_lim (eps / (2 * (Rabs a + 1)))) as [M HM]; [apply Rdiv_lt_0_compat; lra|].
  exists (Rmax 1 (Rmax M (8 * S / eps))). intros y Y.
  pose proof (Rmax_l 1 (Rmax M (8 * S / eps))). pose proof (Rmax_r 1 (Rmax M (8 * S / eps))).
  pose proof (Rmax_l M (8 * S / eps)). pose proof (Rmax_r M (8 * S / eps)).
  specialize (HM y ltac:(lra)). pose proof (cubic_bound q0 q1 q2 q3 y ltac:(lra)) as B. fold S in B.
  set (c := (q0 + q1 * y + q2 * (y * y) + q3 * (y * y * y)) * ee y) in *.
  assert (C : Rabs c < eps / 2).
  { apply Rmult_lt_reg_r with y; [lra|]. apply Rle_lt_trans with (4 * S); [exact B|].
    assert (Z : 8 * S / eps < y) by lra. apply Rmult_lt_compat_r with (r := eps) in Z; [|exact E].
    replace (8 * S / eps * eps) with (8 * S) in Z by (field; lra). lra. }
  replace (a * J y + c - a * (sqrt PI / 2)) with (a * (J y - sqrt PI / 2) + c) by ring.
  eapply Rle_lt_trans; [apply Rabs_triang|]. rewrite Rabs_mult.
  assert (D : Rabs a * Rabs (J y - sqrt PI / 2) <= eps / 2).
  { apply Rle_trans with ((Rabs a + 1) * (eps / (2 * (Rabs a + 1)))).
    - apply Rmult_le_compat; try lra; apply Rabs_pos.
    - right. field. lra. }
  lra.
Qed.

Notation density := Spec.normal_density.
Notation gaussian := Spec.gaussian.

Section Moments.
Variables (m var : R).
Hypothesis V : 0 < var.
Let s := sqrt (2 * var).
Lemma s_pos : 0 < s. Proof. apply sqrt_lt_R0. lra. Qed.
Lemma s_sq : s * s = 2 * var. Proof. apply sqrt_sqrt. lra. Qed.

Lemma density_ee t : density m var t = ee ((t - m) / s) / (s * sqrt PI).
Proof.
  unfold Spec.normal_density, ee. pose proof s_pos. pose proof s_sq as Q. f_equal.
  - f_equal. replace (2 * var) with (s * s). field. lra.
  - replace (2 * PI * var) with (2 * var * PI) by ring. rewrite sqrt_mult; [reflexivity|lra|left; apply PI_RGT_0].
Qed.

(** The antiderivative of a polynomial of degree four times the density. *)
Variables (c0 c1 c2 c3 c4 : R).
Let A := c0 + c2 * var + 3 * c4 * (var * var).
Let poly (t : R) := let x := t - m in c0 + c1 * x + c2 * (x * x) + c3 * (x * x * x) + c4 * (x * x * x * x).
Let q (t : R) := let x := t - m in c1 + c2 * x + c3 * (x * x + 2 * var) + c4 * (x * x * x + 3 * var * x).
Let H (t : R) := A / sqrt PI * J ((t - m) / s) + - var * q t * (ee ((t - m) / s) / (s * sqrt PI)).

Lemma H_deriv t : is_derive H t (poly t * density m var t).
Proof.
  pose proof s_pos as Sp. pose proof s_sq as Q. pose proof (sqrt_lt_R0 PI PI_RGT_0) as P.
  unfold H. evar_last.
  - apply (is_derive_plus (fun t => A / sqrt PI * J ((t - m) / s)) (fun t => - var * q t * (ee ((t - m) / s) / (s * sqrt PI)))).
    + apply (is_derive_scal (fun t => J ((t - m) / s)) t (A / sqrt PI)).
      apply (is_derive_comp J (fun t => (t - m) / s) t); [apply J_deriv|]. auto_derive; [exact I|reflexivity].
    + unfold q, ee. auto_derive; [exact I|reflexivity].
  - rewrite density_ee. unfold plus, scal; simpl. unfold mult; simpl. unfold poly, A, ee.
    replace var with (s * s / 2) by lra.
    replace (- ((t + - m) * / s) * ((t + - m) * / s)) with (- ((t - m) / s) * ((t - m) / s)) by (unfold Rdiv, Rminus; ring).
    generalize (exp (- ((t - m) / s) * ((t - m) / s))). intros e. field. lra.
Qed.

Lemma H_lim : filterlim H (Rbar_locally p_infty) (locally (A / 2)) /\
              filterlim H (Rbar_locally m_infty) (locally (- A / 2)).
Proof.
  pose proof s_pos as Sp. pose proof s_sq as Q. pose proof (sqrt_lt_R0 PI PI_RGT_0) as P.
  set (k := - var / (s * sqrt PI)).
  set (r0 := k * (c1 + c3 * (2 * var))). set (r1 := k * (c2 + c4 * (3 * var)) * s).
  set (r2 := k * c3 * (s * s)). set (r3 := k * c4 * (s * s * s)).
  assert (E : forall y, H (m + s * y) = A / sqrt PI * J y + (r0 + r1 * y + r2 * (y * y) + r3 * (y * y * y)) * ee y).
  { intros y. unfold H. replace ((m + s * y - m) / s) with y by (field; lra). f_equal.
    unfold q, r0, r1, r2, r3, k. field. lra. }
  assert (Eo : forall y, H (m - s * y) = - (A / sqrt PI * J y + (- r0 + r1 * y + - r2 * (y * y) + r3 * (y * y * y)) * ee y)).
  { intros y. replace (m - s * y) with (m + s * - y) by ring. rewrite E, J_odd.
    replace (ee (- y)) with (ee y) by (unfold ee; f_equal; ring). ring. }
  split; apply filterlim_locally; intros eps.
  - destruct (tail (A / sqrt PI) r0 r1 r2 r3 eps (cond_pos eps)) as [M HM].
    exists (m + s * M). intros t T. specialize (HM ((t - m) / s)).
    rewrite <- E in HM. replace (m + s * ((t - m) / s)) with t in HM by (field; lra).
    replace (A / sqrt PI * (sqrt PI / 2)) with (A / 2) in HM by (field; lra). apply HM.
    apply Rmult_lt_reg_l with s; [lra|]. replace (s * ((t - m) / s)) with (t - m) by (field; lra). lra.
  - destruct (tail (A / sqrt PI) (- r0) r1 (- r2) r3 eps (cond_pos eps)) as [M HM].
    exists (m - s * M). intros t T. specialize (HM ((m - t) / s)).
    assert (Ht : H t = - (A / sqrt PI * J ((m - t) / s) + (- r0 + r1 * ((m - t) / s) + - r2 * ((m - t) / s * ((m - t) / s)) + r3 * ((m - t) / s * ((m - t) / s) * ((m - t) / s))) * ee ((m - t) / s))).
    { rewrite <- Eo. f_equal. field. lra. }
    change (Rabs (H t - (- A / 2)) < eps). rewrite Ht.
    replace (A / sqrt PI * (sqrt PI / 2)) with (A / 2) in HM by (field; lra).
    rewrite <- Rabs_Ropp. eapply Rle_lt_trans; [|apply HM].
    + right. f_equal. field. lra.
    + apply Rmult_lt_reg_l with s; [lra|]. replace (s * ((m - t) / s)) with (m - t) by (field; lra). lra.
Qed.

Lemma gaussian_poly f : (forall t, f t = poly t) -> gaussian m var f = A.
Proof.
  intros F. unfold Spec.gaussian. apply is_RInt_gen_unique.
  apply (is_RInt_gen_ext (Derive H)).
  - apply filter_forall. intros ab x _. rewrite (is_derive_unique _ _ _ (H_deriv x)), F. reflexivity.
  - destruct H_lim as [L1 L2]. replace A with (A / 2 - - A / 2) by field.
    apply (is_RInt_gen_Derive H); try assumption.
    + apply filter_forall. intros ab x _. eexists. apply H_deriv.
    + apply filter_forall. intros ab x _.
      apply (continuous_ext (fun t => poly t * density m var t)).
      { intros t. symmetry. apply is_derive_unique, H_deriv. }
      apply (ex_derive_continuous (fun t => poly t * density m var t)). unfold poly, Spec.normal_density. auto_derive. exact I.
Qed.
End Moments.

(* ------------------------------------------------------------------------ *)
(** * Derivatives of the logarithm of the density *)

Lemma neg_mean_deriv (s t x : R) : 0 < s ->
  derivable_pt_lim (fun x => - Model.normal_log_prob x s t) x ((x - t) / s).
Proof.
  intros P. apply (proj1 (is_derive_Reals _ _ _)). unfold Model.normal_log_prob.
  auto_derive; [exact I|]. field. lra.
Qed.
Lemma neg_var_deriv (m t x : R) : 0 < x ->
  derivable_pt_lim (fun x => - Model.normal_log_prob m x t) x (1 / (2 * x) - (t - m) * (t - m) / (2 * (x * x))).
Proof.
  intros P. apply (proj1 (is_derive_Reals _ _ _)). unfold Model.normal_log_prob.
  pose proof (sqrt_lt_R0 x P) as Q. pose proof (sqrt_sqrt x ltac:(lra)) as E.
  auto_derive; [repeat split; lra|].
  replace (1 * / (2 * sqrt x) * / sqrt x) with (1 / (2 * x)) by (rewrite <- E at 1; field; lra). field. lra.
Qed.

(** The probability the loss evaluates is the density. *)
Lemma density_log_prob (m s t : R) : 0 < s -> exp (Model.normal_log_prob m s t) = Spec.normal_density m s t.
Proof.
  intros P. unfold Model.normal_log_prob, Spec.normal_density.
  assert (Q : 0 < 2 * PI) by (pose proof PI_RGT_0; lra).
  pose proof (sqrt_lt_R0 s P) as Ps. pose proof (sqrt_lt_R0 _ Q) as Pq.
  assert (E : ln (2 * PI) / 2 = ln (sqrt (2 * PI))).
  { rewrite <- (sqrt_sqrt (2 * PI)) at 1 by lra. rewrite ln_mult by assumption. field. }
  rewrite E, (sqrt_mult (2 * PI) s) by lra. unfold Rminus. rewrite !exp_plus, !exp_Ropp, !exp_ln by assumption.
  replace (- (t + - m) * (t + - m) / (2 * s)) with (- (t + - m) ^ 2 / (2 * s)) by (unfold Rdiv; ring). field. lra.
Qed.
