(** The scores of the normal losses under their own distribution. *)
From Coq Require Import List Arith Bool Reals Lra Lia.
From Verif.Base Require Import Py ListFacts.
From Verif.Curv Require Import Model Spec VecProofs LossProofs GradProofs CompProofs MomentProofs EstProofs.
From Verif.Curv Require GaussProofs.
Import ListNotations.
Open Scope list_scope.
Open Scope R_scope.

(* ------------------------------------------------------------------------ *)
(** * Gradients of sums over entries *)

Lemma elementwise_gradient {A} (h dh : R -> A -> R) (z : tensor) (aux : list (list A)) (d : A) :
  Forall2 (fun r (bs : list A) => length bs = length r) z aux ->
  (forall r c, (r < length z)%nat -> (c < length (nth r z []))%nat ->
     derivable_pt_lim (fun x => h x (nth c (nth r aux []) d)) (entry z r c) (dh (entry z r c) (nth c (nth r aux []) d))) ->
  is_gradient (fun z => rsum (map2 (fun r bs => rsum (map2 h r bs)) z aux)) z (map2 (map2 dh) z aux).
Proof.
  intros Hf D r c Hr Hc. pose proof (F2_length _ _ _ Hf) as HL. unfold set_entry.
  set (row := nth r z []) in *. set (bs := nth r aux []).
  assert (Hb : length bs = length row).
  { unfold row, bs. clear - Hf Hr. revert r Hr; induction Hf; intros [|r] Hr; simpl in *; try lia; auto. apply IHHf; lia. }
  set (f := fun (r : list R) bs => rsum (map2 h r bs)).
  set (K := rsum (map2 f z aux) - h (nth c row 0) (nth c bs d)).
  apply (dlim_ext (fun x => K + h x (nth c bs d))).
  - intros x. change (K + h x (nth c bs d) = rsum (map2 f (set_nth r (set_nth c x row) z) aux)).
    rewrite (rsum_map2_set f z aux r (set_nth c x row) [] []) by lia. fold row bs.
    assert (E : f (set_nth c x row) bs = f row bs - h (nth c row 0) (nth c bs d) + h x (nth c bs d)).
    { unfold f. rewrite (rsum_map2_set h row bs c x 0 d) by lia. reflexivity. }
    unfold K. lra.
  - assert (E : entry (map2 (map2 dh) z aux) r c = 0 + dh (entry z r c) (nth c bs d)).
    { unfold entry. rewrite (nth_map2 _ z aux r [] []) by lia. fold row bs.
      rewrite (nth_map2 _ row bs c 0 d) by lia. ring. }
    rewrite E. apply (derivable_pt_lim_plus (fun _ => K) (fun x => h x (nth c bs d))); [apply derivable_pt_lim_const|].
    apply D; assumption.
Qed.

Definition neg_mean (x : R) (a : R * R) : R := - normal_log_prob x (fst a) (snd a).
Definition neg_var (x : R) (a : R * R) : R := - normal_log_prob (fst a) x (snd a).

Lemma shaped_zip b n (m s : tensor) : shaped b n m -> shaped b n s ->
  length (map2 (@zip R R) m s) = b /\ Forall (fun r => length r = n) (map2 (@zip R R) m s).
Proof.
  revert m s. induction b as [|b IH]; intros [|r m] [|q s] Hm Hs;
    try (destruct Hm as [Hm _]; discriminate); try (destruct Hs as [Hs _]; discriminate).
  - split; [reflexivity|constructor].
  - apply shaped_cons in Hm as (b1 & B1 & Lm & Hm). apply shaped_cons in Hs as (b2 & B2 & Ls & Hs).
    injection B1 as <-. injection B2 as <-. destruct (IH m s Hm Hs) as [L F]. rewrite map2_cons.
    split; [cbn [length]; congruence|]. constructor; [|exact F]. clear - Lm Ls. revert r q Lm Ls.
    induction n; intros [|? r] [|? q] ? ?; try discriminate; [reflexivity|]. cbn in *. f_equal. apply IHn; congruence.
Qed.
Lemma paired_zip b n (z s t : tensor) : shaped b n z -> shaped b n s -> shaped b n t ->
  Forall2 (fun r (bs : list (R * R)) => length bs = length r) z (map2 (@zip R R) s t).
Proof.
  intros [Lz Fz] Hs Ht. destruct (shaped_zip b n s t Hs Ht) as [L F]. revert Lz Fz L F. generalize (map2 (@zip R R) s t).
  clear. revert z. induction b as [|b IH]; intros [|r z] [|q a] L1 F1 L2 F2; try discriminate; constructor.
  - apply Forall_inv in F1. apply Forall_inv in F2. congruence.
  - apply IH; [cbn in *; congruence|now inversion F1|cbn in *; congruence|now inversion F2].
Qed.
Lemma zip_entry b n (s t : tensor) r c : shaped b n s -> shaped b n t -> (r < b)%nat -> (c < n)%nat ->
  nth c (nth r (map2 (@zip R R) s t) []) (0, 0) = (entry s r c, entry t r c).
Proof.
  intros Hs Ht Hr Hc. unfold entry. destruct Hs as [Ls Fs], Ht as [Lt Ft].
  rewrite (nth_map2 _ s t r [] []) by lia.
  assert (L1 : length (nth r s []) = n) by (rewrite Forall_forall in Fs; apply Fs, nth_In; lia).
  assert (L2 : length (nth r t []) = n) by (rewrite Forall_forall in Ft; apply Ft, nth_In; lia).
  revert L1 L2 Hc. generalize (nth r s []) (nth r t []). clear. revert c. induction n as [|n IH]; intros c [|x u] [|y v] L1 L2 Hc; try discriminate; [lia|].
  destruct c; [reflexivity|]. cbn in *. apply IH; lia.
Qed.

(** Evaluation as a sum over the entries of the mean, or of the variance. *)
Lemma evaluate_by_mean m s t : evaluate_normal_mean_variance m s t
  = rsum (map2 (fun r bs => rsum (map2 neg_mean r bs)) m (map2 (@zip R R) s t)).
Proof.
  unfold evaluate_normal_mean_variance. revert s t. induction m as [|r m IH]; intros [|q s] [|u t]; try (unfold map2; cbn; ring).
  rewrite !map2_cons. cbn [rsum fold_right]. fold rsum. unfold rsum in *. rewrite <- IH.
  match goal with |- - (?a + ?b) = ?c + - ?b => enough (E : - a = c) by lra end. clear.
  revert q u. induction r as [|x r IH]; intros [|y q] [|z u]; try (unfold map2; cbn; ring).
  cbn [zip]. rewrite !map2_cons. cbn [fold_right]. rewrite <- IH. unfold neg_mean. cbn [fst snd]. ring.
Qed.
Lemma evaluate_by_var m s t : evaluate_normal_mean_variance m s t
  = rsum (map2 (fun r bs => rsum (map2 neg_var r bs)) s (map2 (@zip R R) m t)).
Proof.
  unfold evaluate_normal_mean_variance. revert s t. induction m as [|r m IH]; intros [|q s] [|u t]; try (unfold map2; cbn; ring).
  rewrite !map2_cons. cbn [rsum fold_right]. fold rsum. unfold rsum in *. rewrite <- IH.
  match goal with |- - (?a + ?b) = ?c + - ?b => enough (E : - a = c) by lra end. clear.
  revert q u. induction r as [|x r IH]; intros [|y q] [|z u]; try (unfold map2; cbn; ring).
  cbn [zip]. rewrite !map2_cons. cbn [fold_right]. rewrite <- IH. unfold neg_var. cbn [fst snd]. ring.
Qed.
Lemma mean_grad_by_mean m s t : mean_grad m s t
  = map2 (map2 (fun x (a : R * R) => mean_score x (fst a) (snd a))) m (map2 (@zip R R) s t).
Proof.
  unfold mean_grad. revert s t. induction m as [|r m IH]; intros [|q s] [|u t]; try reflexivity.
  rewrite !map2_cons, IH. f_equal. clear. revert q u. induction r as [|x r IH]; intros [|y q] [|z u]; try reflexivity.
  cbn [zip]. rewrite !map2_cons, IH. reflexivity.
Qed.
Lemma var_grad_by_var m s t : var_grad m s t
  = map2 (map2 (fun x (a : R * R) => var_score (fst a) x (snd a))) s (map2 (@zip R R) m t).
Proof.
  unfold var_grad. revert s t. induction m as [|r m IH]; intros [|q s] [|u t]; try reflexivity.
  rewrite !map2_cons, IH. f_equal. clear. revert q u. induction r as [|x r IH]; intros [|y q] [|z u]; try reflexivity.
  cbn [zip]. rewrite !map2_cons, IH. reflexivity.
Qed.

Lemma is_gradient_ext f g z d : (forall z, f z = g z) -> is_gradient f z d -> is_gradient g z d.
Proof. intros E H r c Hr Hc. eapply dlim_ext; [|apply H; assumption]. intros; apply E. Qed.

Lemma pos_entry b n s r c : shaped b n s -> Forall (Forall (fun x => 0 < x)) s -> (r < b)%nat -> (c < n)%nat -> 0 < entry s r c.
Proof.
  intros [L F] P Hr Hc. unfold entry. rewrite Forall_forall in P, F.
  assert (I : In (nth r s []) s) by (apply nth_In; lia). specialize (P _ I). rewrite Forall_forall in P. apply P, nth_In.
  rewrite (F _ I). exact Hc.
Qed.

Lemma mean_gradient b n m s t : shaped b n m -> shaped b n s -> shaped b n t -> Forall (Forall (fun x => 0 < x)) s ->
  is_gradient (fun m => evaluate_normal_mean_variance m s t) m (mean_grad m s t).
Proof.
  intros Hm Hs Ht P. apply (is_gradient_ext _ _ m _ (fun z => eq_sym (evaluate_by_mean z s t))). rewrite mean_grad_by_mean.
  apply (elementwise_gradient neg_mean _ m _ (0, 0)); [apply (paired_zip b n); assumption|].
  intros r c Hr Hc. assert (Hr' : (r < b)%nat) by (destruct Hm; lia).
  assert (Hc' : (c < n)%nat) by (destruct Hm as [_ F]; rewrite Forall_forall in F; rewrite F in Hc; [exact Hc|now apply nth_In]).
  rewrite (zip_entry b n) by assumption. unfold neg_mean, mean_score. cbn [fst snd].
  apply GaussProofs.neg_mean_deriv, (pos_entry b n); assumption.
Qed.
Lemma var_gradient b n m s t : shaped b n m -> shaped b n s -> shaped b n t -> Forall (Forall (fun x => 0 < x)) s ->
  is_gradient (fun s => evaluate_normal_mean_variance m s t) s (var_grad m s t).
Proof.
  intros Hm Hs Ht P. apply (is_gradient_ext _ _ s _ (fun z => eq_sym (evaluate_by_var m z t))). rewrite var_grad_by_var.
  apply (elementwise_gradient neg_var _ s _ (0, 0)); [apply (paired_zip b n); assumption|].
  intros r c Hr Hc. assert (Hr' : (r < b)%nat) by (destruct Hs; lia).
  assert (Hc' : (c < n)%nat) by (destruct Hs as [_ F]; rewrite Forall_forall in F; rewrite F in Hc; [exact Hc|now apply nth_In]).
  rewrite (zip_entry b n) by assumption. unfold neg_var, var_score. cbn [fst snd].
  apply GaussProofs.neg_var_deriv, (pos_entry b n); assumption.
Qed.

(* ------------------------------------------------------------------------ *)
(** * Entries as inner products *)

Definition unit_at (b n r c : nat) : tensor :=
  map (fun i => map (fun j => delta r i * delta c j) (seq 0 n)) (seq 0 b).
Lemma unit_shaped b n r c : shaped b n (unit_at b n r c).
Proof.
  split; [unfold unit_at; now rewrite map_length, seq_length|]. apply Forall_map, Forall_forall. intros i _.
  now rewrite map_length, seq_length.
Qed.
Lemma unit_entry b n r c i j : (i < b)%nat -> (j < n)%nat -> entry (unit_at b n r c) i j = delta r i * delta c j.
Proof.
  intros Hi Hj. unfold entry, unit_at.
  rewrite (nth_indep _ [] (map (fun j => delta r 0 * delta c j) (seq 0 n))) by (now rewrite map_length, seq_length).
  rewrite (map_nth (fun i => map (fun j => delta r i * delta c j) (seq 0 n)) (seq 0 b) 0%nat i), seq_nth by assumption.
  rewrite (nth_indep _ 0 (delta r (0 + i) * delta c 0)) by (now rewrite map_length, seq_length).
  now rewrite (map_nth (fun j => delta r (0 + i) * delta c j) (seq 0 n) 0%nat j), seq_nth.
Qed.
Lemma tdot_unit b n g r c : shaped b n g -> (r < b)%nat -> (c < n)%nat -> tdot g (unit_at b n r c) = entry g r c.
Proof.
  intros Hg Hr Hc. rewrite (tdot_entries b n) by (auto using unit_shaped).
  rewrite (sum_n_ext b _ (fun i => delta r i * entry g i c)).
  - exact (sum_n_delta b r (fun i => entry g i c) Hr).
  - intros i Hi. rewrite (sum_n_ext n _ (fun j => delta c j * (delta r i * entry g i j))).
    + apply (sum_n_delta n c (fun j => delta r i * entry g i j)), Hc.
    + intros j Hj. rewrite unit_entry by assumption. ring.
Qed.

Lemma mean_grad_shaped b n m s t : shaped b n m -> shaped b n s -> shaped b n t -> shaped b n (mean_grad m s t).
Proof. intros Hm Hs Ht. destruct (shaped_zip b n m s Hm Hs). apply map2_shaped; assumption. Qed.
Lemma var_grad_shaped b n m s t : shaped b n m -> shaped b n s -> shaped b n t -> shaped b n (var_grad m s t).
Proof. intros Hm Hs Ht. destruct (shaped_zip b n m s Hm Hs). apply map2_shaped; assumption. Qed.

Lemma shaped_tscale b n a t : shaped b n t -> shaped b n (tscale a t).
Proof.
  intros [L F]. unfold tscale. split; [now rewrite map_length|]. apply Forall_map. eapply Forall_impl; [|exact F].
  intros r Lr. unfold rscale. now rewrite map_length.
Qed.
Lemma tdot_unit_l b n g r c : shaped b n g -> (r < b)%nat -> (c < n)%nat -> tdot (unit_at b n r c) g = entry g r c.
Proof. intros. rewrite tdot_comm. now apply tdot_unit. Qed.

Lemma normal_mean_scores n m var v : wf_loss (NormalMean n m var) -> input_like (NormalMean n m var) (V1 v) ->
  exists g w,
    (forall t, shaped (length m) n t -> is_gradient (fun m => evaluate_normal_mean m var t) m (g t)) /\
    multiply_fisher (NormalMean n m var) (V1 v) = Ok (V1 w) /\
    forall r c, (r < length m)%nat -> (c < n)%nat ->
      normal_targets m (constant_like var m) (fun t => entry (g t) r c) = 0 /\
      normal_targets m (constant_like var m) (fun t => entry (g t) r c * tdot (g t) v) = entry w r c.
Proof.
  intros [Hm V] Hv. exists (normal_grad var m), (tscale (1 / var) v). cbn in Hv.
  split; [|split; [reflexivity|]].
  - intros t Ht. apply normal_gradient; [exact V|destruct Ht, Hm; congruence|now apply (paired_rows (length m) n)].
  - intros r c Hr Hc. set (u := unit_at (length m) n r c).
    pose proof (constant_shaped 0 _ _ _ Hm) as Hz.
    pose proof (normal_quad (length m) n m (constant_like var m) u (constant_like 0 m) v (constant_like 0 m)
      Hm (constant_shaped var _ _ _ Hm) (unit_shaped _ _ _ _) Hz Hv Hz (constant_pos var m V)) as H.
    rewrite zero_tdot_l, Rplus_0_r, (fm_constant var _ n m v Hm Hv) in H. unfold u in H.
    rewrite tdot_unit_l in H by (try assumption; now apply shaped_tscale).
    split; [eapply quad_mean; [exact H|]|eapply quad_cov; [exact H|]]; intros t Ht; cbv beta;
      rewrite !zero_tdot, !Rplus_0_r, mean_grad_constant, tdot_unit by (try assumption; now apply normal_grad_shaped); reflexivity.
Qed.

Lemma fm_shaped b n s x : shaped b n s -> shaped b n x -> shaped b n (map2 fm s x).
Proof. intros [L F] Hx. apply map2_shaped; assumption. Qed.
Lemma fv_shaped b n s x : shaped b n s -> shaped b n x -> shaped b n (map2 fv s x).
Proof. intros [L F] Hx. apply map2_shaped; assumption. Qed.

Lemma normal_mean_variance_scores n m s v1 v2 :
  wf_loss (NormalMeanVariance n m s) -> input_like (NormalMeanVariance n m s) (V2 v1 v2) ->
  exists g1 g2 w1 w2,
    (forall t, shaped (length m) n t ->
       is_gradient (fun m => evaluate_normal_mean_variance m s t) m (g1 t) /\
       is_gradient (fun s => evaluate_normal_mean_variance m s t) s (g2 t)) /\
    multiply_fisher (NormalMeanVariance n m s) (V2 v1 v2) = Ok (V2 w1 w2) /\
    forall r c, (r < length m)%nat -> (c < n)%nat ->
      normal_targets m s (fun t => entry (g1 t) r c) = 0 /\
      normal_targets m s (fun t => entry (g2 t) r c) = 0 /\
      normal_targets m s (fun t => entry (g1 t) r c * ldot (V2 (g1 t) (g2 t)) (V2 v1 v2)) = entry w1 r c /\
      normal_targets m s (fun t => entry (g2 t) r c * ldot (V2 (g1 t) (g2 t)) (V2 v1 v2)) = entry w2 r c.
Proof.
  intros (Hm & Hs & P) [H1 H2]. cbn [batch] in H1, H2.
  exists (mean_grad m s), (var_grad m s), (map2 fm s v1), (map2 fv s v2).
  split; [|split; [reflexivity|]].
  - intros t Ht. split; [now apply (mean_gradient (length m) n)|now apply (var_gradient (length m) n)].
  - intros r c Hr Hc. pose proof (constant_shaped 0 _ _ _ Hm) as Hz. set (u := unit_at (length m) n r c).
    pose proof (normal_quad (length m) n m s u (constant_like 0 m) v1 v2 Hm Hs (unit_shaped _ _ _ _) Hz H1 H2 P) as Q1.
    pose proof (normal_quad (length m) n m s (constant_like 0 m) u v1 v2 Hm Hs Hz (unit_shaped _ _ _ _) H1 H2 P) as Q2.
    rewrite zero_tdot_l, Rplus_0_r in Q1. rewrite zero_tdot_l, Rplus_0_l in Q2. unfold u in Q1, Q2.
    rewrite tdot_unit_l in Q1 by (try assumption; now apply fm_shaped).
    rewrite tdot_unit_l in Q2 by (try assumption; now apply fv_shaped).
    cbn [ldot]. split; [|split; [|split]];
      [eapply quad_mean; [exact Q1|]|eapply quad_mean; [exact Q2|]|eapply quad_cov; [exact Q1|]|eapply quad_cov; [exact Q2|]];
      intros t Ht; cbv beta; rewrite zero_tdot, ?Rplus_0_r, ?Rplus_0_l, tdot_unit
        by (try assumption; try (now apply mean_grad_shaped); now apply var_grad_shaped); reflexivity.
Qed.

(* ------------------------------------------------------------------------ *)
(** * The distribution of the targets *)

Lemma evaluate_one m var t : evaluate_normal_mean [[m]] var [[t]] = - normal_log_prob m var t.
Proof. unfold evaluate_normal_mean, map2. cbn. ring. Qed.
Lemma evaluate_one_variance m var t : evaluate_normal_mean_variance [[m]] [[var]] [[t]] = - normal_log_prob m var t.
Proof. unfold evaluate_normal_mean_variance, map2. cbn. ring. Qed.

Lemma normal_prob m var : 0 < var ->
  (forall t, exp (- evaluate_normal_mean [[m]] var [[t]]) = normal_density m var t /\
             exp (- evaluate_normal_mean_variance [[m]] [[var]] [[t]]) = normal_density m var t) /\
  gaussian m var (fun _ => 1) = 1 /\ gaussian m var (fun t => t) = m /\
  gaussian m var (fun t => (t - m) ^ 2) = var.
Proof.
  intros V. split; [|split; [|split]].
  - intros t. rewrite evaluate_one, evaluate_one_variance, Ropp_involutive. rewrite GaussProofs.density_log_prob by exact V. auto.
  - rewrite (GaussProofs.gaussian_poly m var V 1 0 0 0 0); [ring|]. intros t; cbv zeta; ring.
  - rewrite (GaussProofs.gaussian_poly m var V m 1 0 0 0); [ring|]. intros t; cbv zeta; ring.
  - rewrite (GaussProofs.gaussian_poly m var V 0 0 1 0 0); [ring|]. intros t; cbv zeta; ring.
Qed.

(* ------------------------------------------------------------------------ *)
(** * Mode "gradients" for every loss *)

Definition lmoments (l : loss) (d : dist lvec) : Prop :=
  forall x y w, input_like l x -> input_like l y -> multiply_fisher l y = Ok w ->
    quad (input_like l) d (fun s => ldot s x) (fun s => ldot s y) (ldot x w).

Lemma sampled_natural l d : sampled_gradient l d -> one_input l.
Proof. destruct 1; reflexivity. Qed.

Lemma sampled_lmoments l d : wf_loss l -> sampled_gradients l d -> lmoments l d.
Proof.
  intros W H. destruct H as [l d H|n m s g1 g2 Hg].
  - pose proof (sampled_natural l d H) as N. pose proof (sampled_moments l d W H) as M.
    intros x y w Hx Hy E. destruct (natural_input l x N Hx) as (x' & -> & Lx). destruct (natural_input l y N Hy) as (y' & -> & Ly).
    destruct (fb_spec l W N y' Ly) as (_ & _ & E' & _). rewrite E' in E. injection E as <-. cbn [ldot].
    intros a b e k h Eh. apply (M x' y' Lx Ly a b e k (fun s => h (V1 s))). intros t Ht. apply Eh.
    now apply natural_input_r.
  - destruct W as (Hm & Hs & P). intros x y w Hx Hy E. destruct x as [|x1 x2]; [contradiction|]. destruct y as [|y1 y2]; [contradiction|].
    cbn [input_like batch] in Hx, Hy. destruct Hx as [Hx1 Hx2], Hy as [Hy1 Hy2].
    cbn [multiply_fisher] in E. injection E as <-. cbn [ldot].
    pose proof (normal_quad (length m) n m s x1 x2 y1 y2 Hm Hs Hx1 Hx2 Hy1 Hy2 P) as Q.
    intros a b e k h Eh. apply Q with (b := b) (e := e). intros t Ht.
    destruct (Hg t Ht) as [[G1 G2] [S1 S2]].
    assert (E1 : g1 t = mean_grad m s t).
    { eapply (gradient_unique _ m n); [exact Hm|exact S1|now apply mean_grad_shaped|exact G1|].
      now apply (mean_gradient (length m) n). }
    assert (E2 : g2 t = var_grad m s t).
    { assert (Ls : length s = length m) by apply Hs.
      eapply (gradient_unique _ s n); rewrite ?Ls; [exact Hs|exact S2|now apply var_grad_shaped|exact G2|].
      now apply (var_gradient (length m) n). }
    rewrite Eh by (split; assumption). rewrite E1, E2. reflexivity.
Qed.

Definition item : Type := (loss * R) * (lvec * (lvec * (lvec * dist lvec))).
Definition i_lc (i : item) := fst i.
Definition i_x (i : item) := fst (snd i).
Definition i_y (i : item) := fst (snd (snd i)).
Definition i_w (i : item) := fst (snd (snd (snd i))).
Definition i_d (i : item) := snd (snd (snd (snd i))).
Definition term (x : item -> lvec) (i : item) (g : lvec) : R := sqrt (snd (i_lc i)) * ldot g (x i).

Lemma own_inputs_like wrt l js v x : own_jacobians wrt l js -> own_inputs l js v x -> input_like l x.
Proof.
  intros [_ F] H. unfold own_inputs in H.
  assert (K : forall j, In j js -> shaped (batch l) (input_width l) (push j v)).
  { intros j Hj. rewrite Forall_forall in F. destruct (F j Hj) as [L G]. split; [unfold push; now rewrite map_length|].
    unfold push. apply Forall_map. eapply Forall_impl; [|exact G]. intros gs [Lg _]. now rewrite map_length. }
  destruct l; cbn [natural] in H.
  1-3: destruct H as (j & -> & ->); apply (K j); now left.
  destruct H as (j1 & j2 & -> & ->). split; apply K; [now left|right; now left].
Qed.

Lemma one_loss_sum l js v x co g ws xs : own_inputs l js v x -> input_like l g ->
  sum_losses (flatten [lscale co g] ++ ws) (map (fun j => push j v) js ++ xs) = co * ldot g x + sum_losses ws xs.
Proof.
  unfold own_inputs. intros H Hg. destruct l; cbn [natural] in H; destruct g; try contradiction.
  1-3: destruct H as (j & -> & ->); cbn; rewrite tdot_scale_l; ring.
  destruct H as (j1 & j2 & -> & ->). cbn. rewrite !tdot_scale_l. ring.
Qed.

Lemma flatten_cons v vs : flatten (v :: vs) = flatten [v] ++ flatten vs.
Proof. unfold flatten. cbn. now rewrite app_nil_r. Qed.

Lemma all_losses_items wrt u v ls jacs ds xs ys :
  Forall (fun lc => wf_loss (fst lc) /\ 0 <= snd lc) ls ->
  Forall2 (fun lc js => own_jacobians wrt (fst lc) js) ls jacs ->
  Forall2 (fun lc d => sampled_gradients (fst lc) d) ls ds ->
  Forall2 (fun p x => own_inputs (fst (fst p)) (snd p) u x) (zip ls jacs) xs ->
  Forall2 (fun p y => own_inputs (fst (fst p)) (snd p) v y) (zip ls jacs) ys ->
  exists items ws,
    Forall2 (fun p w => multiply_fisher (fst (fst p)) (snd p) = Ok w) (zip ls ys) ws /\
    Forall (fun i => quad (input_like (fst (i_lc i))) (i_d i) (term i_x i) (term i_y i) (snd (i_lc i) * ldot (i_x i) (i_w i))) items /\
    map i_d items = ds /\ map i_lc items = ls /\
    (forall gs, Forall2 (fun lc g => input_like (fst lc) g) ls gs ->
       length (flatten (map2 (fun lc g => lscale (sqrt (snd lc)) g) ls gs)) = length (concat jacs) /\
       sum_losses (flatten (map2 (fun lc g => lscale (sqrt (snd lc)) g) ls gs)) (map (fun j => push j u) (concat jacs))
         = rsum (map2 (term i_x) items gs) /\
       sum_losses (flatten (map2 (fun lc g => lscale (sqrt (snd lc)) g) ls gs)) (map (fun j => push j v) (concat jacs))
         = rsum (map2 (term i_y) items gs)) /\
    map (fun i => snd (i_lc i) * ldot (i_x i) (i_w i)) items
      = map2 (fun p w => snd (fst p) * ldot (snd p) w) (zip ls xs) ws.
Proof.
  intros W HJ. revert ds xs ys W. induction HJ as [|[l co] js ls jacs Hj HJ IH]; intros ds xs ys W HD HX HY.
  - inversion HD; subst. cbn in HX, HY. inversion HX; subst. inversion HY; subst.
    exists [], []. cbn. split; [constructor|]. split; [constructor|]. split; [reflexivity|]. split; [reflexivity|]. split; [|reflexivity].
    intros gs Hg. inversion Hg; subst. cbn. auto.
  - inversion HD as [|? d ? ds' Hd HDs]; subst. cbn [zip] in HX, HY.
    inversion HX as [|? x ? xs' Hx HXs]; subst. inversion HY as [|? y ? ys' Hy HYs]; subst.
    pose proof (Forall_inv W) as [Wl P]. apply Forall_inv_tail in W. cbn [fst snd] in *.
    destruct (IH ds' xs' ys' W HDs HXs HYs) as (items & ws & I1 & I2 & I3 & I4 & I5 & I6).
    pose proof (own_inputs_like _ _ _ _ _ Hj Hx) as Lx. pose proof (own_inputs_like _ _ _ _ _ Hj Hy) as Ly.
    destruct (fisher_factorises l y Wl Ly) as (_ & w & _ & _ & _ & Ew & _).
    exists (((l, co), (x, (y, (w, d)))) :: items), (w :: ws). cbn [zip map].
    split; [constructor; [exact Ew|exact I1]|]. split.
    { constructor; [|exact I2]. unfold term, i_lc, i_x, i_y, i_w, i_d. cbn [fst snd].
      replace (co * ldot x w) with (sqrt co * sqrt co * ldot x w) by (rewrite sqrt_sqrt by exact P; reflexivity).
      apply quad_scale, (sampled_lmoments l d Wl Hd); assumption. }
    split; [cbn; f_equal; exact I3|]. split; [cbn; f_equal; exact I4|]. split.
    + intros gs Hg. inversion Hg as [|? g ? gs' Hg0 Hgs]; subst. cbn [fst snd] in *. destruct (I5 gs' Hgs) as (J1 & J2 & J3).
      rewrite !map2_cons, flatten_cons. cbn [concat snd fst]. rewrite !map_app, !app_length.
      rewrite (one_loss_sum l js u x (sqrt co) g) by assumption. rewrite (one_loss_sum l js v y (sqrt co) g) by assumption.
      rewrite J1, J2, J3. split; [|split; reflexivity]. f_equal. destruct Hj as [Lj _]. rewrite Lj.
      destruct l, g; try contradiction; reflexivity.
    + rewrite map2_cons, I6. reflexivity.
Qed.

Lemma own_grads wrt (ls : list (loss * R)) jacs : Forall2 (fun lc js => own_jacobians wrt (fst lc) js) ls jacs ->
  Forall (Forall (Forall (wrt_like wrt))) (concat jacs).
Proof.
  induction 1 as [|lc js ls jacs [_ F] _ IH]; cbn; [constructor|]. apply Forall_app. split; [|exact IH].
  eapply Forall_impl; [|exact F]. intros j [_ G]. eapply Forall_impl; [|exact G]. intros gs [_ Hg]. exact Hg.
Qed.

Theorem gradients_unbiased_all c jacs ds :
  Forall (fun lc => wf_loss (fst lc) /\ 0 <= snd lc) (c_losses c) ->
  c_jac c = concat jacs -> Forall2 (fun lc js => own_jacobians (c_wrt c) (fst lc) js) (c_losses c) jacs ->
  Forall2 (fun lc d => sampled_gradients (fst lc) d) (c_losses c) ds ->
  exists G,
    (forall gs, Forall2 (fun lc g => input_like (fst lc) g) (c_losses c) gs -> grads_gradients c gs = Ok (G gs)) /\
    forall u v xs ys,
      Forall2 (fun p x => own_inputs (fst (fst p)) (snd p) u x) (zip (c_losses c) jacs) xs ->
      Forall2 (fun p y => own_inputs (fst (fst p)) (snd p) v y) (zip (c_losses c) jacs) ys ->
      exists ws, Forall2 (fun p w => multiply_fisher (fst (fst p)) (snd p) = Ok w) (zip (c_losses c) ys) ws /\
        independent ds (fun gs => tdot (G gs) u) = 0 /\
        independent ds (fun gs => tdot (G gs) u * tdot (G gs) v)
        = rsum (map2 (fun p w => snd (fst p) * ldot (snd p) w) (zip (c_losses c) xs) ws).
Proof.
  intros W EJ HJ HD.
  set (sc := fun gs => flatten (map2 (fun lc g => lscale (sqrt (snd lc)) g) (c_losses c) gs)).
  exists (fun gs => grad_all (zeros (c_wrt c)) (c_jac c) (sc gs)).
  assert (HG : forall gs u, tdot (grad_all (zeros (c_wrt c)) (c_jac c) (sc gs)) u = sum_losses (sc gs) (map (fun j => push j u) (concat jacs))).
  { intros gs u. destruct (grad_all_spec (c_wrt c) (c_jac c) (sc gs) (zeros (c_wrt c))) as [_ E].
    - rewrite EJ. exact (own_grads _ _ _ HJ).
    - apply zeros_shape.
    - rewrite E, zeros_tdot, EJ. ring. }
  split.
  - intros gs Hg. unfold grads_gradients, multiply_jacobian_transpose. fold (sc gs). cbv zeta.
    replace (Nat.eqb (length (sc gs)) (length (c_jac c))) with true; [reflexivity|]. symmetry. apply Nat.eqb_eq.
    rewrite EJ. unfold sc. clear - HJ Hg. revert gs Hg. induction HJ as [|[l co] js ls jacs [Lj _] _ IH]; intros gs Hg; inversion Hg as [|? g ? gs' Hg0 Hgs]; subst; [reflexivity|].
    rewrite map2_cons, flatten_cons. cbn [concat]. rewrite !app_length, (IH gs' Hgs). f_equal. rewrite Lj.
    cbn [fst snd] in *. destruct l, g; try contradiction; reflexivity.
  - intros u v xs ys HX HY.
    destruct (all_losses_items (c_wrt c) u v (c_losses c) jacs ds xs ys W HJ HD HX HY) as (items & ws & I1 & I2 & I3 & I4 & I5 & I6).
    exists ws. split; [exact I1|]. rewrite <- I6, <- I3.
    pose proof (ind_quad (fun i => input_like (fst (i_lc i))) i_d (term i_x) (term i_y)
      (fun i => snd (i_lc i) * ldot (i_x i) (i_w i)) items I2) as Q.
    assert (HL : forall gs, Forall2 (fun i => input_like (fst (i_lc i))) items gs -> Forall2 (fun lc g => input_like (fst lc) g) (c_losses c) gs).
    { intros gs H. rewrite <- I4. clear - H. induction H; constructor; auto. }
    split; [eapply quad_mean|eapply quad_cov]; try exact Q; intros gs Hg; destruct (I5 gs (HL gs Hg)) as (_ & E1 & E2);
      rewrite !HG; unfold sc; rewrite ?E1, ?E2; reflexivity.
Qed.
