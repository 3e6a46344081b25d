(** First and second moments of independent random tensors, and those of the scores of
    the two normal losses. *)
From Coq Require Import List Arith Bool Reals Lra Lia.
From Verif.Base Require Import Py ListFacts.
From Verif.Curv Require Import Model Spec VecProofs LossProofs GradProofs CompProofs.
From Verif.Curv Require GaussProofs.
Import ListNotations.
Open Scope list_scope.
Open Scope R_scope.

(** On outcomes with [Q], [d] is linear on the span of 1, f, g and f * g, where f and g are
    centred and f * g has expectation [c].  (The expectation of the normal distribution is
    not linear on all functions, only on the integrable ones.) *)
Definition quad {A} (Q : A -> Prop) (d : dist A) (f g : A -> R) (c : R) : Prop :=
  forall a b e k h, (forall t, Q t -> h t = a + b * f t + e * g t + k * (f t * g t)) -> d h = a + k * c.

Lemma quad_ext {A} (Q : A -> Prop) d (f f' g g' : A -> R) c c' :
  (forall t, Q t -> f t = f' t) -> (forall t, Q t -> g t = g' t) -> c = c' -> quad Q d f g c -> quad Q d f' g' c'.
Proof. intros Ef Eg <- H a b e k h E. apply (H a b e k). intros t Qt. rewrite E, Ef, Eg by exact Qt. reflexivity. Qed.

Lemma quad_scale {A} (Q : A -> Prop) d (f g : A -> R) c u v : quad Q d f g c ->
  quad Q d (fun t => u * f t) (fun t => v * g t) (u * v * c).
Proof.
  intros H a b e k h E. rewrite (H a (b * u) (e * v) (k * (u * v)) h); [ring|].
  intros t Qt. rewrite E by exact Qt. ring.
Qed.

Lemma quad_mean {A} (Q : A -> Prop) d (f g : A -> R) c h : quad Q d f g c -> (forall t, Q t -> h t = f t) -> d h = 0.
Proof. intros H E. rewrite (H 0 1 0 0 h); [ring|]. intros t Qt. rewrite E by exact Qt. ring. Qed.
Lemma quad_cov {A} (Q : A -> Prop) d (f g : A -> R) c h : quad Q d f g c -> (forall t, Q t -> h t = f t * g t) -> d h = c.
Proof. intros H E. rewrite (H 0 0 0 1 h); [ring|]. intros t Qt. rewrite E by exact Qt. ring. Qed.

(** Independent outcomes: sums of centred terms. *)
Lemma ind_quad {A I} (Q : I -> A -> Prop) (D : I -> dist A) (F G : I -> A -> R) (C : I -> R) (l : list I) :
  Forall (fun i => quad (Q i) (D i) (F i) (G i) (C i)) l ->
  quad (Forall2 Q l) (independent (map D l)) (fun t => rsum (map2 F l t)) (fun t => rsum (map2 G l t)) (rsum (map C l)).
Proof.
  induction 1 as [|i l Hi _ IH]; intros a b e k h E.
  - cbn [map independent]. rewrite (E [] (Forall2_nil _)), !map2_nil_l. cbn. ring.
  - cbn [map independent]. rewrite (Hi (a + k * rsum (map C l)) b e k); [cbn [rsum fold_right]; fold rsum; unfold rsum; ring|].
    intros x Qx.
    rewrite (IH (a + b * F i x + e * G i x + k * (F i x * G i x)) (b + k * G i x) (e + k * F i x) k); [ring|].
    intros t Qt. rewrite (E (x :: t) (Forall2_cons _ _ Qx Qt)), !map2_cons. cbn [rsum fold_right]. fold rsum. unfold rsum. ring.
Qed.

(** From full linearity. *)
Lemma pd_quad {A} (Q : A -> Prop) (d : dist A) (f g : A -> R) c : prob_dist d ->
  (forall f g, (forall t, Q t -> f t = g t) -> d f = d g) ->
  d f = 0 -> d g = 0 -> d (fun t => f t * g t) = c -> quad Q d f g c.
Proof.
  intros P S F G C a b e k h E. rewrite (S h (fun t => (a + b * f t) + (e * g t + k * (f t * g t)))).
  - rewrite (pd_add d P (fun t => a + b * f t) (fun t => e * g t + k * (f t * g t))).
    rewrite (pd_add d P (fun _ => a) (fun t => b * f t)), (pd_add d P (fun t => e * g t) (fun t => k * (f t * g t))).
    rewrite (pd_const d a P), (pd_scale d P b f), (pd_scale d P e g), (pd_scale d P k (fun t => f t * g t)).
    rewrite F, G, C. ring.
  - intros t Qt. rewrite E by exact Qt. ring.
Qed.

(* ------------------------------------------------------------------------ *)
(** * One normal entry *)

(** The scores of one entry: the derivatives of minus the log-probability. *)
Definition mean_score (m s t : R) : R := (m - t) / s.
Definition var_score (m s t : R) : R := 1 / (2 * s) - (t - m) * (t - m) / (2 * (s * s)).

Lemma entry_quad m s x y x' y' : 0 < s ->
  quad (fun _ => True) (gaussian m s)
    (fun t => mean_score m s t * x + var_score m s t * y) (fun t => mean_score m s t * x' + var_score m s t * y')
    (x * x' / s + y * y' / (2 * (s * s))).
Proof.
  intros P a b e k h E.
  set (p0 := y / (2 * s)). set (p1 := - x / s). set (p2 := - y / (2 * (s * s))).
  set (q0 := y' / (2 * s)). set (q1 := - x' / s). set (q2 := - y' / (2 * (s * s))).
  rewrite (GaussProofs.gaussian_poly m s P
    (a + b * p0 + e * q0 + k * (p0 * q0)) (b * p1 + e * q1 + k * (p0 * q1 + p1 * q0))
    (b * p2 + e * q2 + k * (p0 * q2 + p1 * q1 + p2 * q0)) (k * (p1 * q2 + p2 * q1)) (k * (p2 * q2))).
  - unfold p0, p1, p2, q0, q1, q2. field. lra.
  - intros t. rewrite E by exact I. unfold mean_score, var_score, p0, p1, p2, q0, q1, q2. field. lra.
Qed.

(* ------------------------------------------------------------------------ *)
(** * Normal tensors *)

(** The two gradients of minus the log-probability of the targets. *)
Definition mean_grad (m s t : tensor) : tensor := map2 (map2 (fun p t => mean_score (fst p) (snd p) t)) (map2 (@zip R R) m s) t.
Definition var_grad (m s t : tensor) : tensor := map2 (map2 (fun p t => var_score (fst p) (snd p) t)) (map2 (@zip R R) m s) t.

(** One entry of the data: mean and variance, two directions. *)
Definition pt : Type := (R * R) * ((R * R) * (R * R)).
Definition pts (m s x y x' y' : row) : list pt := zip (zip m s) (zip (zip x y) (zip x' y')).
Definition score (p : R * R) (d : R * R) (t : R) : R :=
  mean_score (fst p) (snd p) t * fst d + var_score (fst p) (snd p) t * snd d.
Definition cov (p : R * R) (d e : R * R) : R :=
  fst d * fst e / snd p + snd d * snd e / (2 * (snd p * snd p)).

Definition rowpt : Type := (row * row) * ((row * row) * (row * row)).
Definition rowpts (q : rowpt) : list pt :=
  let '((m, s), ((x, y), (x', y'))) := q in pts m s x y x' y'.
Definition F1 (i : pt) (t : R) := score (fst i) (fst (snd i)) t.
Definition G1 (i : pt) (t : R) := score (fst i) (snd (snd i)) t.
Definition C1 (i : pt) := cov (fst i) (fst (snd i)) (snd (snd i)).
Definition D1 (i : pt) : dist R := gaussian (fst (fst i)) (snd (fst i)).
Definition F2 (q : rowpt) (t : row) := rsum (map2 F1 (rowpts q) t).
Definition G2 (q : rowpt) (t : row) := rsum (map2 G1 (rowpts q) t).
Definition C2 (q : rowpt) := rsum (map C1 (rowpts q)).
Definition D2 (q : rowpt) : dist row := independent (map D1 (rowpts q)).
Definition ok_row (n : nat) (q : rowpt) : Prop :=
  let '((m, s), ((x, y), (x', y'))) := q in
  length m = n /\ length s = n /\ length x = n /\ length y = n /\ length x' = n /\ length y' = n /\
  Forall (fun x => 0 < x) s.

Lemma pts_pos m s x y x' y' : Forall (fun x => 0 < x) s -> Forall (fun i : pt => 0 < snd (fst i)) (pts m s x y x' y').
Proof.
  intros H. unfold pts. revert m x y x' y'. induction H as [|v s V _ IH]; intros [|a m] [|b x] [|c y] [|d x'] [|e y'];
    cbn; constructor; auto.
Qed.

Lemma row_quad n q : ok_row n q -> quad (fun t => length t = n) (D2 q) (F2 q) (G2 q) (C2 q).
Proof.
  destruct q as [[m s] [[x y] [x' y']]]. intros (L1 & L2 & L3 & L4 & L5 & L6 & P).
  pose proof (ind_quad (fun _ _ => True) D1 F1 G1 C1 (pts m s x y x' y')) as H.
  intros a b e k h E. apply (H) with (b := b) (e := e).
  - eapply Forall_impl; [|apply (pts_pos m s x y x' y' P)]. intros [[m0 s0] [[x0 y0] [x1 y1]]] V.
    unfold D1, F1, G1, C1, score, cov. cbn [fst snd] in *. exact (entry_quad m0 s0 x0 y0 x1 y1 V).
  - intros t F. apply E. apply F2_length in F. rewrite <- F. unfold pts. clear - L1 L2 L3 L4 L5 L6.
    revert s x y x' y' n L1 L2 L3 L4 L5 L6. induction m as [|? m IH]; intros [|? s] [|? x] [|? y] [|? x'] [|? y'] [|n] ? ? ? ? ? ?; try discriminate; auto.
    cbn in *. f_equal. apply IH; congruence.
Qed.

(** The row in terms of inner products. *)
Definition fm (s x : row) : row := map2 (fun s x => 1 / s * x) s x.
Definition fv (s x : row) : row := map2 (fun s x => 1 / (2 * (s * s)) * x) s x.

Lemma row_terms n m s x y x' y' t : length m = n -> length s = n -> length x = n -> length y = n ->
  length x' = n -> length y' = n -> length t = n ->
  rsum (map2 F1 (pts m s x y x' y') t)
  = dot (map2 (fun p t => mean_score (fst p) (snd p) t) (zip m s) t) x
    + dot (map2 (fun p t => var_score (fst p) (snd p) t) (zip m s) t) y /\
  rsum (map2 G1 (pts m s x y x' y') t)
  = dot (map2 (fun p t => mean_score (fst p) (snd p) t) (zip m s) t) x'
    + dot (map2 (fun p t => var_score (fst p) (snd p) t) (zip m s) t) y' /\
  rsum (map C1 (pts m s x y x' y')) = dot x (fm s x') + dot y (fv s y') /\
  map D1 (pts m s x y x' y') = map2 gaussian m s.
Proof.
  revert m s x y x' y' t. induction n as [|n IH]; intros [|m0 m] [|s0 s] [|x0 x] [|y0 y] [|x1 x'] [|y1 y'] [|t0 t];
    intros; try discriminate.
  - cbn. unfold dot, map2. cbn. repeat split; ring.
  - destruct (IH m s x y x' y' t) as (E1 & E2 & E3 & E4); try (cbn [length] in *; congruence).
    assert (EP : pts (m0 :: m) (s0 :: s) (x0 :: x) (y0 :: y) (x1 :: x') (y1 :: y')
                 = ((m0, s0), ((x0, y0), (x1, y1))) :: pts m s x y x' y') by reflexivity.
    rewrite EP. cbn [zip map]. unfold fm, fv in *. rewrite !map2_cons, !dot_cons. cbn [rsum fold_right]. fold rsum. unfold rsum in *.
    rewrite E1, E2, E3, E4. unfold F1, G1, C1, D1, score, cov. cbn [fst snd].
    split; [ring|]. split; [ring|]. split; [unfold Rdiv; ring|]. reflexivity.
Qed.

Definition rows (m s x y x' y' : tensor) : list rowpt := zip (zip m s) (zip (zip x y) (zip x' y')).

Lemma tensor_terms b n m s x y x' y' : shaped b n m -> shaped b n s -> shaped b n x -> shaped b n y ->
  shaped b n x' -> shaped b n y' -> Forall (Forall (fun x => 0 < x)) s ->
  Forall (ok_row n) (rows m s x y x' y') /\ length (rows m s x y x' y') = b /\
  (forall t, shaped b n t ->
     rsum (map2 F2 (rows m s x y x' y') t) = tdot (mean_grad m s t) x + tdot (var_grad m s t) y /\
     rsum (map2 G2 (rows m s x y x' y') t) = tdot (mean_grad m s t) x' + tdot (var_grad m s t) y') /\
  rsum (map C2 (rows m s x y x' y')) = tdot x (map2 fm s x') + tdot y (map2 fv s y') /\
  map D2 (rows m s x y x' y') = map2 (fun ms vs => independent (map2 gaussian ms vs)) m s.
Proof.
  revert m s x y x' y'. induction b as [|b IH].
  - intros m s x y x' y' [Lm _] [Ls _] [Lx _] [Ly _] [Lx' _] [Ly' _] _.
    destruct m, s, x, y, x', y'; try discriminate. cbn. unfold tdot, map2. cbn.
    split; [constructor|]. split; [reflexivity|]. split; [|split; [ring|reflexivity]].
    intros [|? ?] [Lt _]; [|discriminate]. cbn. split; ring.
  - intros [|m0 m] [|s0 s] [|x0 x] [|y0 y] [|x1 x'] [|y1 y'] Hm Hs Hx Hy Hx' Hy' P;
      try (destruct Hm as [Hm _]; discriminate); try (destruct Hs as [Hs _]; discriminate);
      try (destruct Hx as [Hx _]; discriminate); try (destruct Hy as [Hy _]; discriminate);
      try (destruct Hx' as [Hx' _]; discriminate); try (destruct Hy' as [Hy' _]; discriminate).
    apply shaped_cons in Hm as (b1 & B1 & Lm & Hm). apply shaped_cons in Hs as (b2 & B2 & Ls & Hs).
    apply shaped_cons in Hx as (b3 & B3 & Lx & Hx). apply shaped_cons in Hy as (b4 & B4 & Ly & Hy).
    apply shaped_cons in Hx' as (b5 & B5 & Lx' & Hx'). apply shaped_cons in Hy' as (b6 & B6 & Ly' & Hy').
    injection B1 as <-. injection B2 as <-. injection B3 as <-. injection B4 as <-. injection B5 as <-. injection B6 as <-.
    pose proof (Forall_inv P) as P0. apply Forall_inv_tail in P.
    destruct (IH m s x y x' y' Hm Hs Hx Hy Hx' Hy' P) as (E0 & El & E1 & E2 & E3).
    assert (EP : rows (m0 :: m) (s0 :: s) (x0 :: x) (y0 :: y) (x1 :: x') (y1 :: y')
                 = ((m0, s0), ((x0, y0), (x1, y1))) :: rows m s x y x' y') by reflexivity.
    rewrite EP. split; [constructor; [|exact E0]; cbn; tauto|].
    split; [cbn [length]; congruence|]. split; [|split].
    + intros [|t0 t] Ht; [destruct Ht as [Ht _]; discriminate|]. apply shaped_cons in Ht as (b7 & B7 & Lt & Ht). injection B7 as <-.
      destruct (E1 t Ht) as [Ef Eg]. destruct (row_terms n m0 s0 x0 y0 x1 y1 t0 Lm Ls Lx Ly Lx' Ly' Lt) as (R1 & R2 & _).
      unfold mean_grad, var_grad in *. rewrite !map2_cons, !tdot_cons. cbn [rsum fold_right]. fold rsum. unfold rsum in *.
      rewrite Ef, Eg. unfold F2, G2, rowpts, rsum. rewrite R1, R2. split; ring.
    + destruct (row_terms n m0 s0 x0 y0 x1 y1 m0 Lm Ls Lx Ly Lx' Ly' Lm) as (_ & _ & R3 & _).
      cbn [map]. rewrite !map2_cons, !tdot_cons. cbn [rsum fold_right]. fold rsum. unfold rsum in *. rewrite E2.
      unfold C2, rowpts, rsum. rewrite R3. ring.
    + destruct (row_terms n m0 s0 x0 y0 x1 y1 m0 Lm Ls Lx Ly Lx' Ly' Lm) as (_ & _ & _ & R4).
      cbn [map]. rewrite map2_cons, E3. unfold D2 at 1, rowpts. rewrite R4. reflexivity.
Qed.

Lemma normal_quad b n m s x y x' y' : shaped b n m -> shaped b n s -> shaped b n x -> shaped b n y ->
  shaped b n x' -> shaped b n y' -> Forall (Forall (fun x => 0 < x)) s ->
  quad (shaped b n) (normal_targets m s)
    (fun t => tdot (mean_grad m s t) x + tdot (var_grad m s t) y)
    (fun t => tdot (mean_grad m s t) x' + tdot (var_grad m s t) y')
    (tdot x (map2 fm s x') + tdot y (map2 fv s y')).
Proof.
  intros Hm Hs Hx Hy Hx' Hy' P.
  destruct (tensor_terms b n m s x y x' y' Hm Hs Hx Hy Hx' Hy' P) as (E0 & El & E1 & E2 & E3).
  unfold normal_targets. rewrite <- E3, <- E2.
  pose proof (ind_quad (fun _ t => length t = n) D2 F2 G2 C2 (rows m s x y x' y')) as H.
  intros a c e k h E. apply H with (b := c) (e := e).
  - eapply Forall_impl; [|exact E0]. intros q Hq. apply row_quad, Hq.
  - intros t F.
    assert (Ht : shaped b n t).
    { split; [rewrite <- (F2_length _ _ _ F); exact El|]. clear - F. induction F; constructor; auto. }
    destruct (E1 t Ht) as [-> ->]. apply E, Ht.
Qed.

(* ------------------------------------------------------------------------ *)
(** * The normal loss with a constant variance *)

Lemma constant_shaped x b n t : shaped b n t -> shaped b n (constant_like x t).
Proof.
  intros [L F]. split; [unfold constant_like; now rewrite map_length|]. unfold constant_like.
  apply Forall_map. eapply Forall_impl; [|exact F]. intros r Lr. now rewrite map_length.
Qed.
Lemma constant_pos x t : 0 < x -> Forall (Forall (fun x => 0 < x)) (constant_like x t).
Proof. intros P. apply Forall_map, Forall_forall. intros r _. apply Forall_map, Forall_forall. auto. Qed.

Lemma mean_grad_constant var m t : mean_grad m (constant_like var m) t = normal_grad var m t.
Proof.
  unfold mean_grad, normal_grad, constant_like. revert t. induction m as [|r m IH]; intros [|s t]; try reflexivity.
  cbn [map]. rewrite !map2_cons, IH. f_equal. clear. revert s. induction r as [|x r IH]; intros [|y s]; try reflexivity.
  cbn [map zip]. rewrite !map2_cons, IH. reflexivity.
Qed.
Lemma zero_dot n x : forall (t : row), length t = n -> dot x (map (fun _ => 0) t) = 0.
Proof.
  revert n. induction x as [|a x IH]; intros n [|b t] L; try reflexivity. cbn [map]. rewrite dot_cons, (IH (length t)) by reflexivity. ring.
Qed.
Lemma zero_tdot x t : tdot x (constant_like 0 t) = 0.
Proof.
  unfold constant_like. revert t. induction x as [|a x IH]; intros [|b t]; try reflexivity.
  cbn [map]. rewrite tdot_cons, IH, (zero_dot (length b)) by reflexivity. ring.
Qed.
Lemma zero_tdot_l x t : tdot (constant_like 0 t) x = 0.
Proof. rewrite tdot_comm. apply zero_tdot. Qed.
Lemma fm_constant var b n m x : shaped b n m -> shaped b n x -> map2 fm (constant_like var m) x = tscale (1 / var) x.
Proof.
  intros [Lm Fm] [Lx Fx]. unfold constant_like, tscale. revert m x Lm Fm Lx Fx. induction b as [|b IH]; intros [|r m] [|s x] Lm Fm Lx Fx; try discriminate; [reflexivity|].
  cbn [map]. rewrite map2_cons, IH; [|cbn in *; congruence|now inversion Fm|cbn in *; congruence|now inversion Fx].
  f_equal. apply Forall_inv in Fm. apply Forall_inv in Fx. unfold fm, rscale. clear - Fm Fx. revert r s Fm Fx.
  induction n as [|n IH]; intros [|a r] [|c s] L1 L2; try discriminate; [reflexivity|].
  cbn [map]. rewrite map2_cons, IH by (cbn in *; congruence). reflexivity.
Qed.
Lemma map2_shaped {A} (f : A -> R -> R) b n (z : list (list A)) t :
  length z = b -> Forall (fun r => length r = n) z -> shaped b n t -> shaped b n (map2 (map2 f) z t).
Proof.
  revert z t. induction b as [|b IH]; intros [|r z] t L F Ht; try discriminate.
  - split; [reflexivity|constructor].
  - destruct t as [|s t]; [destruct Ht; discriminate|]. apply shaped_cons in Ht as (b' & E & Ls & Ht). injection E as <-.
    rewrite map2_cons. apply shaped_S; [|apply IH; [cbn in *; congruence|now inversion F|exact Ht]].
    apply map2_length_eq; [now apply Forall_inv in F|exact Ls].
Qed.
Lemma normal_grad_shaped b n var m t : shaped b n m -> shaped b n t -> shaped b n (normal_grad var m t).
Proof. intros [Lm Fm] Ht. apply map2_shaped; assumption. Qed.
Lemma paired_rows b n (z t : tensor) : shaped b n z -> shaped b n t -> Forall2 (fun r s => length s = length r) z t.
Proof.
  intros [Lz Fz] [Lk Fk]. revert z t Lz Fz Lk Fk. induction b as [|b IH]; intros [|r z] [|k ks] Lz Fz Lk Fk; try discriminate.
  - constructor.
  - inversion Fz; inversion Fk; subst. constructor; [congruence|]. apply IH; auto.
Qed.

Lemma normal_mean_moments n m var g x y : 0 < var -> shaped (length m) n m ->
  (forall t, shaped (length m) n t -> g t = normal_grad var m t) ->
  shaped (length m) n x -> shaped (length m) n y ->
  quad (shaped (length m) n) (fun f => normal_targets m (constant_like var m) (fun t => f (g t)))
    (fun s => tdot s x) (fun s => tdot s y) (tdot x (tscale (1 / var) y)).
Proof.
  intros V Hm Hg Hx Hy.
  pose proof (constant_shaped 0 _ _ _ Hm) as Hz.
  pose proof (normal_quad (length m) n m (constant_like var m) x (constant_like 0 m) y (constant_like 0 m)
     Hm (constant_shaped var _ _ _ Hm) Hx Hz Hy Hz (constant_pos var m V)) as H.
  rewrite zero_tdot_l, Rplus_0_r, (fm_constant var _ n m y Hm Hy) in H.
  intros a b e k h E. apply H with (b := b) (e := e). intros t Ht. cbv beta. rewrite !zero_tdot, !Rplus_0_r, mean_grad_constant.
  rewrite (Hg t Ht). apply E. apply normal_grad_shaped; assumption.
Qed.
