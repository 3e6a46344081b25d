(** Proofs about the Fisher products of the four losses. *)
From Coq Require Import List Arith Bool Reals Lra Lia.
From Verif.Base Require Import Py ListFacts.
From Verif.Curv Require Import Model Spec VecProofs.
Import ListNotations.
Open Scope list_scope.
Open Scope R_scope.

(* ------------------------------------------------------------------------ *)
(** * Categorical rows *)

Definition cat_F (p x : row) : row := map2 Rminus (map2 Rmult x p) (rscale (rsum (map2 Rmult x p)) p).
Definition cat_B (p x : row) : row :=
  let q := map sqrt p in map2 Rminus (map2 Rmult q x) (rscale (rsum (map2 Rmult q x)) p).
Definition cat_BT (p x : row) : row :=
  let q := map sqrt p in map2 Rminus (map2 Rmult q x) (rscale (rsum (map2 Rmult p x)) q).

Definition prob_row (n : nat) (p : row) : Prop :=
  length p = n /\ Forall (fun x => 0 <= x) p /\ (p <> [] -> rsum p = 1).

Lemma softmax_prob n r : length r = n -> prob_row n (softmax r).
Proof.
  intros H. split; [rewrite softmax_length; auto|]. split; [apply softmax_nonneg|].
  intros Hn. apply softmax_sum. intros ->. apply Hn; reflexivity.
Qed.

Lemma cat_elementwise p x s t : Forall (fun x => 0 <= x) p -> length x = length p ->
  let q := map sqrt p in
  map2 Rminus (map2 Rmult q (map2 Rminus (map2 Rmult q x) (rscale s q))) (rscale t p)
  = map2 Rminus (map2 Rmult x p) (rscale (s + t) p).
Proof.
  cbv zeta. intros H; revert x; induction H as [|a p Ha Hp IH]; intros [|b x] Hl; try discriminate; auto.
  cbn [map rscale]. fold (rscale s (map sqrt p)) (rscale t p) (rscale (s + t) p).
  rewrite !map2_cons. cbn [map]. simpl in Hl. fold (rscale t p) (rscale (s + t) p).
  rewrite IH by lia. f_equal.
  assert (E := sqrt_sqrt a Ha). nra.
Qed.

Lemma cat_sum p x s : Forall (fun x => 0 <= x) p -> length x = length p ->
  let q := map sqrt p in
  rsum (map2 Rmult q (map2 Rminus (map2 Rmult q x) (rscale s q))) = rsum (map2 Rmult p x) - s * rsum p.
Proof.
  cbv zeta. intros H; revert x; induction H as [|a p Ha Hp IH]; intros [|b x] Hl; try discriminate.
  - simpl. ring.
  - cbn [map]. change (rscale s (sqrt a :: map sqrt p)) with (s * sqrt a :: rscale s (map sqrt p)).
    rewrite !map2_cons. cbn [rsum fold_right]. simpl in Hl.
    assert (IH' := IH x ltac:(lia)). unfold rsum in IH'. rewrite IH'.
    assert (E := sqrt_sqrt a Ha). unfold rsum. nra.
Qed.

Lemma cat_factorises n p x : prob_row n p -> length x = n -> cat_B p (cat_BT p x) = cat_F p x.
Proof.
  intros [Hl [Hp Hs]] Hx. unfold cat_B, cat_BT, cat_F. cbv zeta.
  rewrite cat_elementwise by (auto; lia). rewrite cat_sum by (auto; lia).
  rewrite (map2_mult_comm x p).
  destruct p as [|a p].
  - reflexivity.
  - rewrite Hs by discriminate. f_equal. f_equal. ring.
Qed.

Lemma cat_len_B n p x : length p = n -> length x = n -> length (cat_B p x) = n.
Proof.
  intros. unfold cat_B. apply map2_length_eq; [apply map2_length_eq|]; rewrite ?map_length, ?rscale_length; auto.
Qed.
Lemma cat_len_BT n p x : length p = n -> length x = n -> length (cat_BT p x) = n.
Proof.
  intros. unfold cat_BT. apply map2_length_eq; [apply map2_length_eq|]; rewrite ?rscale_length, ?map_length; auto.
Qed.
Lemma cat_len_F n p x : length p = n -> length x = n -> length (cat_F p x) = n.
Proof.
  intros. unfold cat_F. apply map2_length_eq; [apply map2_length_eq|]; rewrite ?rscale_length, ?map_length; auto.
Qed.

Lemma cat_adjoint n p x y : length p = n -> length x = n -> length y = n ->
  dot (cat_B p x) y = dot x (cat_BT p y).
Proof.
  intros Hp Hx Hy. unfold cat_B, cat_BT. cbv zeta.
  rewrite dot_sub_l by (rewrite rscale_length, (map2_length_eq Rmult (map sqrt p) x n); rewrite ?map_length; auto).
  rewrite dot_sub_r by (rewrite rscale_length, (map2_length_eq Rmult (map sqrt p) y n); rewrite ?map_length; auto).
  rewrite dot_scale_l, dot_scale_r, dot_mul_l. fold (dot (map sqrt p) x) (dot p y).
  rewrite (dot_comm x (map sqrt p)). ring.
Qed.

(* ------------------------------------------------------------------------ *)
(** * Diagonal rows *)

Lemma diag_adjoint {A} (d : A -> R) (p : list A) x y :
  dot (map2 (fun p x => d p * x) p x) y = dot x (map2 (fun p x => d p * x) p y).
Proof.
  revert x y; induction p as [|a p IH]; intros [|b x] [|c y]; rewrite ?dot_nil_l, ?dot_nil_r; auto.
  rewrite !map2_cons, !dot_cons, IH. ring.
Qed.

Lemma diag_compose {A} (d e : A -> R) (p : list A) x : Forall (fun a => d a * d a = e a) p ->
  map2 (fun p x => d p * x) p (map2 (fun p x => d p * x) p x) = map2 (fun p x => e p * x) p x.
Proof.
  intros H; revert x; induction H as [|a p Ha Hp IH]; intros [|b x]; auto.
  rewrite !map2_cons, IH, <- Ha. f_equal. ring.
Qed.

Lemma sigmoid_sq x : let p := sigmoid x in
  sqrt (p * (1 - p)) * sqrt (p * (1 - p)) = p * (1 - p).
Proof. cbv zeta. pose proof (sigmoid_range x). apply sqrt_sqrt. nra. Qed.
Lemma mean_sq s : 0 < s -> 1 / sqrt s * (1 / sqrt s) = 1 / s.
Proof.
  intros H. pose proof (sqrt_lt_R0 s H). rewrite <- (sqrt_sqrt s) at 3 by lra. field. lra.
Qed.
Lemma var_sq s : 0 < s -> 1 / (sqrt 2 * s) * (1 / (sqrt 2 * s)) = 1 / (2 * (s * s)).
Proof.
  intros H. pose proof (sqrt_lt_R0 2 ltac:(lra)). rewrite <- (sqrt_sqrt 2) at 3 by lra. field. lra.
Qed.
Lemma inv_sqrt_sq v : 0 < v -> / sqrt v * / sqrt v = 1 / v.
Proof.
  intros H. pose proof (sqrt_lt_R0 v H). rewrite <- (sqrt_sqrt v) at 3 by lra. field. lra.
Qed.

Lemma forall_rows {A} (P : A -> Prop) (t : list (list A)) : (forall a, P a) -> Forall (Forall P) t.
Proof. intros H. apply Forall_forall; intros; apply Forall_forall; auto. Qed.

Lemma shaped_map_rows {A} (f : list A -> row) (z : list (list A)) b n :
  length z = b -> Forall (fun r => length r = n) z -> (forall r, length (f r) = length r) ->
  shaped b n (map f z).
Proof.
  intros H1 H2 H3. split; [rewrite map_length; auto|].
  apply Forall_forall. intros x Hx. apply in_map_iff in Hx as [a [<- Ha]].
  rewrite H3. rewrite Forall_forall in H2; auto.
Qed.

Lemma map2_map_l {A A' B C} (g : A -> A') (f : A' -> B -> C) l m :
  map2 f (map g l) m = map2 (fun a b => f (g a) b) l m.
Proof. revert m; induction l as [|a l IH]; intros [|b m]; auto. simpl map. rewrite !map2_cons, IH; auto. Qed.

Lemma tscale_compose a b x : tscale a (tscale b x) = tscale (a * b) x.
Proof.
  unfold tscale. rewrite map_map. apply map_ext; intros r. unfold rscale. rewrite map_map.
  apply map_ext; intros; ring.
Qed.
Lemma tscale_shaped a b n x : shaped b n x -> shaped b n (tscale a x).
Proof. rewrite !shaped_shape, tscale_shape; auto. Qed.

Lemma diag_shaped {A} (d : A -> R) (P : list (list A)) v b n :
  length P = b -> Forall (fun r => length r = n) P -> shaped b n v ->
  shaped b n (map2 (map2 (fun p x => d p * x)) P v).
Proof.
  intros H1 H2 Hv. apply (map2_rows_shaped _ _ _ b n n (fun r => length r = n)); auto.
  intros; apply map2_length_eq; auto.
Qed.

(** Splitting and joining the two halves. *)
Lemma split_app n a b m : shaped m n a -> shaped m n b -> split2 n (map2 (@app R) a b) = (a, b).
Proof.
  unfold split2. revert m b; induction a as [|x a IH]; intros m [|y b] Ha Hb; auto.
  - apply shaped_nil in Ha; subst. apply shaped_cons in Hb as [? [? ?]]; discriminate.
  - apply shaped_nil in Hb; subst. apply shaped_cons in Ha as [? [? ?]]; discriminate.
  - apply shaped_cons in Ha as [m' [-> [Hx Ha]]]. apply shaped_cons in Hb as [m'' [E [Hy Hb]]].
    injection E as <-. rewrite map2_cons. simpl.
    specialize (IH m' b Ha Hb). injection IH as I1 I2. rewrite I1, I2.
    rewrite firstn_app, skipn_app. rewrite Hx, Nat.sub_diag, <- Hx, firstn_all, skipn_all, firstn_O, app_nil_r.
    reflexivity.
Qed.
Lemma app_shaped n a b m : shaped m n a -> shaped m n b -> shaped m (2 * n) (map2 (@app R) a b).
Proof.
  intros Ha Hb. destruct Ha as [<- Ha].
  apply (map2_rows_shaped _ a b (length a) n (2 * n) (fun r => length r = n)); auto.
  intros p x Hp Hx. rewrite app_length. lia.
Qed.
Lemma split_shaped n t m : shaped m (2 * n) t ->
  shaped m n (fst (split2 n t)) /\ shaped m n (snd (split2 n t)).
Proof.
  intros [H1 H2]. unfold split2; cbn [fst snd]. split; (split; [rewrite map_length; auto|]);
    apply Forall_forall; intros x Hx; apply in_map_iff in Hx as [a [<- Ha]];
    rewrite Forall_forall in H2; specialize (H2 a Ha).
  - rewrite firstn_length. lia.
  - rewrite skipn_length. lia.
Qed.
Lemma dot_app a b t n : length a = n ->
  dot t (a ++ b) = dot (firstn n t) a + dot (skipn n t) b.
Proof.
  revert a t; induction n; intros [|x a] t Ha; try discriminate.
  - simpl. rewrite dot_nil_l. ring.
  - destruct t as [|y t]; simpl firstn; simpl skipn.
    + rewrite !dot_nil_l. ring.
    + simpl app. rewrite !dot_cons. simpl in Ha. rewrite (IHn a t) by lia. ring.
Qed.
Lemma tdot_app n m t a b : length t = m -> shaped m n a -> shaped m n b ->
  tdot t (map2 (@app R) a b) = tdot (fst (split2 n t)) a + tdot (snd (split2 n t)) b.
Proof.
  unfold split2; cbn [fst snd]. revert m a b; induction t as [|x t IH]; intros m [|y a] [|z b] Ht Ha Hb;
    try (exfalso; destruct Ha as [La _], Hb as [Lb _]; simpl in *; lia).
  - rewrite !tdot_nil_l. ring.
  - simpl in Ht. apply shaped_cons in Ha as [m' [-> [Hy Ha]]]. apply shaped_cons in Hb as [m'' [E [Hz Hb]]].
    injection E as <-. injection Ht as Ht. rewrite map2_cons. cbn [map]. rewrite !tdot_cons, (dot_app y z x n Hy).
    rewrite (IH m' a b) by auto. ring.
Qed.

(* ------------------------------------------------------------------------ *)
(** * The factor B *)

Lemma probs_cat n z : probs (Categorical n z) = map softmax z.
Proof. reflexivity. Qed.

Lemma probs_cat_ok n z : shaped (length z) n z -> Forall (prob_row n) (map softmax z).
Proof.
  intros [_ H]. apply Forall_forall. intros p Hp. apply in_map_iff in Hp as [r [<- Hr]].
  apply softmax_prob. rewrite Forall_forall in H; auto.
Qed.

Theorem fisher_factorises l v : wf_loss l -> input_like l v ->
  exists u w, multiply_fisher_factor_transpose l v = Ok u /\ inner_like l u /\
    multiply_fisher_factor l u = Ok w /\ multiply_fisher l v = Ok w /\ input_like l w.
Proof.
  destruct l as [n z|n z|n m var|n m s]; destruct v as [v|a b]; simpl wf_loss; unfold input_like;
    simpl batch; intros Hw Hv; try contradiction.
  - (* categorical *)
    pose proof (probs_cat_ok n z Hw) as Hp.
    assert (Hlen : length (map softmax z) = length z) by apply map_length.
    assert (Hp' : Forall (fun p => length p = n) (map softmax z)).
    { apply Forall_forall. intros p Hin. rewrite Forall_forall in Hp. apply (Hp p Hin). }
    exists (V1 (map2 cat_BT (map softmax z) v)), (V1 (map2 cat_B (map softmax z) (map2 cat_BT (map softmax z) v))).
    assert (S1 : shaped (length z) n (map2 cat_BT (map softmax z) v)).
    { apply (map2_rows_shaped _ _ _ _ n n (fun p => length p = n)); auto. intros; apply cat_len_BT; auto. }
    split; [reflexivity|split; [exact S1|split; [reflexivity|split]]].
    + cbn [multiply_fisher]. rewrite probs_cat. do 2 f_equal. rewrite map2_rows_compose.
      symmetry. apply (map2_rows_ext _ _ _ _ (length z) n (prob_row n)); auto.
      intros p x H1 H2. apply (cat_factorises n); auto.
    + apply (map2_rows_shaped _ _ _ _ n n (fun p => length p = n)); auto. intros; apply cat_len_B; auto.
  - (* Bernoulli *)
    destruct Hw as [_ Hw].
    assert (Hp : length (map (map sigmoid) z) = length z) by apply map_length.
    assert (Hr : Forall (fun r => length r = n) (map (map sigmoid) z)).
    { apply (shaped_map_rows (map sigmoid) z (length z) n); auto. intros; apply map_length. }
    eexists; eexists. split; [reflexivity|split; [|split; [reflexivity|split]]].
    + simpl. unfold probs. apply (diag_shaped (fun p => sqrt (p * (1 - p)))); auto.
    + cbn [multiply_fisher probs]. do 2 f_equal. rewrite map2_rows_compose.
      symmetry. apply (map2_rows_ext _ _ _ _ (length z) n (Forall (fun p => sqrt (p * (1 - p)) * sqrt (p * (1 - p)) = p * (1 - p)))); auto.
      * apply Forall_forall. intros r Hin. apply in_map_iff in Hin as [r' [<- _]].
        apply Forall_forall. intros p Hpp. apply in_map_iff in Hpp as [x [<- _]]. apply sigmoid_sq.
      * intros p x H1 H2. apply (diag_compose (fun p => sqrt (p * (1 - p))) (fun p => p * (1 - p))); auto.
    + simpl. apply (diag_shaped (fun p => sqrt (p * (1 - p)))); auto.
      apply (diag_shaped (fun p => sqrt (p * (1 - p)))); auto.
  - (* normal mean *)
    destruct Hw as [Hm Hvar].
    eexists; eexists. split; [reflexivity|split; [|split; [reflexivity|split]]].
    + simpl. apply tscale_shaped; auto.
    + cbn [multiply_fisher]. do 2 f_equal. rewrite tscale_compose, inv_sqrt_sq; auto.
    + apply tscale_shaped, tscale_shaped; auto.
  - (* normal mean and variance *)
    destruct Hw as [Hm [Hs Hpos]]. destruct Hv as [Ha Hb]. destruct Hs as [Hs1 Hs2].
    assert (A1 : shaped (length m) n (map2 (map2 (fun s x => 1 / sqrt s * x)) s a))
      by (apply (diag_shaped (fun s => 1 / sqrt s)); auto).
    assert (B1 : shaped (length m) n (map2 (map2 (fun s x => 1 / (sqrt 2 * s) * x)) s b))
      by (apply (diag_shaped (fun s => 1 / (sqrt 2 * s))); auto).
    eexists; eexists. split; [reflexivity|split; [|split; [|split]]].
    + simpl. rewrite Nat.add_0_r. replace (n + n)%nat with (2 * n)%nat by lia. apply app_shaped; auto.
    + cbn [multiply_fisher_factor]. rewrite (split_app n _ _ (length m)) by auto. reflexivity.
    + cbn [multiply_fisher]. rewrite !map2_rows_compose. do 2 f_equal.
      * symmetry. apply (map2_rows_ext _ _ _ _ (length m) n (Forall (fun s => 1 / sqrt s * (1 / sqrt s) = 1 / s))); auto.
        -- apply Forall_forall; intros r Hin; apply Forall_forall; intros x Hx.
           apply mean_sq. rewrite Forall_forall in Hpos. specialize (Hpos r Hin).
           rewrite Forall_forall in Hpos; auto.
        -- intros p x H1 H2. apply (diag_compose (fun s => 1 / sqrt s) (fun s => 1 / s)); auto.
      * symmetry. apply (map2_rows_ext _ _ _ _ (length m) n
          (Forall (fun s => 1 / (sqrt 2 * s) * (1 / (sqrt 2 * s)) = 1 / (2 * (s * s))))); auto.
        -- apply Forall_forall; intros r Hin; apply Forall_forall; intros x Hx.
           apply var_sq. rewrite Forall_forall in Hpos. specialize (Hpos r Hin).
           rewrite Forall_forall in Hpos; auto.
        -- intros p x H1 H2. apply (diag_compose (fun s => 1 / (sqrt 2 * s)) (fun s => 1 / (2 * (s * s)))); auto.
    + cbn beta iota. split.
      * apply (diag_shaped (fun s => 1 / sqrt s)); auto.
      * apply (diag_shaped (fun s => 1 / (sqrt 2 * s))); auto.
Qed.

Theorem factor_adjoint l u v : wf_loss l -> inner_like l u -> input_like l v ->
  exists w x, multiply_fisher_factor l u = Ok w /\ multiply_fisher_factor_transpose l v = Ok x /\
    input_like l w /\ ldot w v = ldot u x.
Proof.
  destruct l as [n z|n z|n m var|n m s]; destruct u as [u|a0 b0]; destruct v as [v|a b];
    simpl wf_loss; unfold input_like, inner_like, inner_width;
    simpl batch; intros Hw Hu Hv; try contradiction.
  - assert (Hlen : length (map softmax z) = length z) by apply map_length.
    assert (Hp' : Forall (fun p => length p = n) (map softmax z)).
    { apply Forall_forall. intros p Hin. pose proof (probs_cat_ok n z Hw) as Hp.
      rewrite Forall_forall in Hp. apply (Hp p Hin). }
    eexists; eexists. split; [reflexivity|split; [reflexivity|split]].
    + apply (map2_rows_shaped _ _ _ _ n n (fun p => length p = n)); auto.
      intros p x H1 H2. apply (cat_len_B n); auto.
    + cbn [ldot]. rewrite probs_cat.
      apply (map2_rows_adjoint cat_B cat_BT _ u v (length z) n n (fun p => length p = n)); auto.
      intros; apply (cat_adjoint n); auto.
  - destruct Hw as [_ Hw].
    assert (Hp : length (map (map sigmoid) z) = length z) by apply map_length.
    assert (Hr : Forall (fun r => length r = n) (map (map sigmoid) z)).
    { apply (shaped_map_rows (map sigmoid) z (length z) n); auto. intros; apply map_length. }
    eexists; eexists. split; [reflexivity|split; [reflexivity|split]].
    + apply (diag_shaped (fun p => sqrt (p * (1 - p)))); auto.
    + cbn [ldot probs].
      apply (map2_rows_adjoint _ _ _ u v (length z) n n (fun p => length p = n)); auto.
      intros; apply (diag_adjoint (fun p => sqrt (p * (1 - p)))).
  - eexists; eexists. split; [reflexivity|split; [reflexivity|split]].
    + apply tscale_shaped; auto.
    + cbn [ldot]. rewrite tdot_scale_l, tdot_scale_r; auto.
  - destruct Hw as [Hm [[Hs1 Hs2] Hpos]]. destruct Hv as [Ha Hb].
    destruct (split_shaped n u (length m) Hu) as [Hu1 Hu2].
    eexists; eexists. split; [reflexivity|split; [reflexivity|split]].
    + cbn beta iota. split.
      * apply (diag_shaped (fun s => 1 / sqrt s)); auto.
      * apply (diag_shaped (fun s => 1 / (sqrt 2 * s))); auto.
    + cbn [ldot]. rewrite (tdot_app n (length m)).
      * f_equal.
        -- apply (map2_rows_adjoint _ _ s _ a (length m) n n (fun p => length p = n)); auto.
           intros; apply (diag_adjoint (fun s => 1 / sqrt s)).
        -- apply (map2_rows_adjoint _ _ s _ b (length m) n n (fun p => length p = n)); auto.
           intros; apply (diag_adjoint (fun s => 1 / (sqrt 2 * s))).
      * apply Hu.
      * apply (diag_shaped (fun s => 1 / sqrt s)); auto.
      * apply (diag_shaped (fun s => 1 / (sqrt 2 * s))); auto.
Qed.

Lemma ldot_comm u v : ldot u v = ldot v u.
Proof. destruct u, v; simpl; auto; rewrite ?(tdot_comm t), ?(tdot_comm a), ?(tdot_comm b); auto. Qed.
Lemma ldot_nonneg u : 0 <= ldot u u.
Proof.
  destruct u as [t|a b]; simpl; [apply tdot_self_nonneg|].
  pose proof (tdot_self_nonneg a); pose proof (tdot_self_nonneg b); lra.
Qed.

Theorem fisher_gram l u v : wf_loss l -> input_like l u -> input_like l v ->
  exists fu fv bu bv, multiply_fisher l u = Ok fu /\ multiply_fisher l v = Ok fv /\
    multiply_fisher_factor_transpose l u = Ok bu /\ multiply_fisher_factor_transpose l v = Ok bv /\
    ldot fu v = ldot bu bv /\ ldot u fv = ldot bu bv.
Proof.
  intros Hw Hu Hv.
  destruct (fisher_factorises l u Hw Hu) as [bu [fu [E1 [I1 [E2 [E3 J1]]]]]].
  destruct (fisher_factorises l v Hw Hv) as [bv [fv [E4 [I2 [E5 [E6 J2]]]]]].
  exists fu, fv, bu, bv. split; [auto|split; [auto|split; [auto|split; [auto|]]]].
  destruct (factor_adjoint l bu v Hw I1 Hv) as [w [x [A1 [A2 [_ A3]]]]].
  destruct (factor_adjoint l bv u Hw I2 Hu) as [w' [x' [B1 [B2 [_ B3]]]]].
  split.
  - congruence.
  - rewrite ldot_comm. rewrite (ldot_comm bu bv). congruence.
Qed.

(* ------------------------------------------------------------------------ *)
(** * Documented matrices *)

Lemma row_of_len_shaped b n t r : shaped b n t -> (r < b)%nat -> length (nth r t []) = n.
Proof.
  intros [<- H] Hr. rewrite Forall_forall in H. apply H, nth_In; auto.
Qed.

Lemma documented_fisher_ok l v w r i : wf_loss l -> input_like l v -> multiply_fisher l v = Ok w ->
  (r < batch l)%nat -> (i < inner_width l)%nat ->
  nth i (row_of w r) 0 = sum_n (inner_width l) (fun j => documented_fisher l r i j * nth j (row_of v r) 0).
Proof.
  destruct l as [n z|n z|n m var|n m s]; destruct v as [v|a b];
    simpl wf_loss; unfold input_like, inner_width; simpl batch; intros Hw Hv Hf Hr Hi; try contradiction;
    cbn [multiply_fisher] in Hf; injection Hf as <-; cbn [row_of documented_fisher].
  - cbn [probs].
    assert (Hz : length (nth r z []) = n) by (apply (row_of_len_shaped (length z)); auto).
    assert (Hvr : length (nth r v []) = n) by (apply (row_of_len_shaped (length z)); auto).
    rewrite (nth_map2 _ _ _ r [] []); [|rewrite map_length; auto|destruct Hv as [-> _]; auto].
    replace (nth r (map softmax z) []) with (softmax (nth r z [])) by (symmetry; apply (map_nth softmax z [])).
    set (p := softmax (nth r z [])). assert (Hp : length p = n) by (unfold p; rewrite softmax_length; auto).
    set (x := nth r v []) in *.
    rewrite (nth_map2 Rminus _ _ i 0 0); [|rewrite (map2_length_eq Rmult x p n) by auto; auto|rewrite rscale_length, Hp; auto].
    rewrite (nth_map2 Rmult _ _ i 0 0) by lia. rewrite nth_rscale.
    rewrite (sum_n_ext n _ (fun j => delta i j * (nth j p 0 * nth j x 0) - nth i p 0 * (nth j x 0 * nth j p 0))).
    2:{ intros k Hk. cbv zeta. fold p. destruct (Nat.eq_dec i k); [subst k; rewrite delta_refl; ring|rewrite delta_neq by auto; ring]. }
    fold (dot x p). rewrite (dot_sum x p n Hvr Hp).
    rewrite sum_n_sub, sum_n_delta, sum_n_scale by auto. ring.
  - cbn [probs].
    assert (Hz : length (nth r z []) = n) by (apply (row_of_len_shaped (length z)); auto).
    assert (Hvr : length (nth r v []) = n) by (apply (row_of_len_shaped (length z)); auto).
    rewrite (nth_map2 _ _ _ r [] []); [|rewrite map_length; auto|destruct Hv as [-> _]; auto].
    replace (nth r (map (map sigmoid) z) []) with (map sigmoid (nth r z [])) by (symmetry; apply (map_nth (map sigmoid) z [])).
    rewrite (nth_map2 _ _ _ i (sigmoid 0) 0) by (rewrite ?map_length; lia).
    rewrite map_nth. set (p := sigmoid (nth i (nth r z []) 0)).
    rewrite (sum_n_ext n _ (fun j => delta i j * (p * (1 - p) * nth j (nth r v []) 0))) by (intros; ring).
    rewrite sum_n_delta by auto. ring.
  - assert (Hvr : length (nth r v []) = n) by (apply (row_of_len_shaped (length m)); auto).
    replace (nth r (tscale (1 / var) v) []) with (rscale (1 / var) (nth r v [])) by (symmetry; apply (map_nth (rscale (1 / var)) v [])).
    rewrite nth_rscale.
    rewrite (sum_n_ext n _ (fun j => delta i j * ((1 / var) * nth j (nth r v []) 0))) by (intros; ring).
    rewrite sum_n_delta by auto. ring.
  - destruct Hw as [Hm [Hs Hpos]]. destruct Hv as [Ha Hb].
    assert (Hsr : length (nth r s []) = n) by (apply (row_of_len_shaped (length m)); auto).
    assert (Har : length (nth r a []) = n) by (apply (row_of_len_shaped (length m)); auto).
    assert (Hbr : length (nth r b []) = n) by (apply (row_of_len_shaped (length m)); auto).
    rewrite (nth_map2 _ s a r [] []); [|destruct Hs as [-> _]; auto|destruct Ha as [-> _]; auto].
    rewrite (nth_map2 _ s b r [] []); [|destruct Hs as [-> _]; auto|destruct Hb as [-> _]; auto].
    set (d := if Nat.ltb i n then 1 / nth i (nth r s []) 0 else 1 / 2 * / nth (i - n) (nth r s []) 0 ^ 2).
    rewrite (sum_n_ext (2 * n) _ (fun j => delta i j * (d * nth j (nth r a [] ++ nth r b []) 0))).
    2:{ intros k Hk. rewrite Rmult_assoc. auto. }
    rewrite sum_n_delta by auto. unfold d. clear d.
    destruct (Nat.ltb_spec i n).
    + rewrite !app_nth1 by (rewrite ?map2_length; lia).
      rewrite (nth_map2 _ _ _ i 0 0) by lia. auto.
    + rewrite !app_nth2 by (rewrite ?map2_length; lia). rewrite map2_length, Hsr, Har, Nat.min_id.
      rewrite (nth_map2 _ _ _ (i - n) 0 0) by lia.
      assert (Hp : 0 < nth (i - n) (nth r s []) 0).
      { rewrite Forall_forall in Hpos. assert (Hin : In (nth r s []) s) by (apply nth_In; destruct Hs as [-> _]; auto).
        specialize (Hpos _ Hin). rewrite Forall_forall in Hpos. apply Hpos, nth_In. lia. }
      field. lra.
Qed.

(* ------------------------------------------------------------------------ *)
(** * One-hot columns *)

Lemma one_hot_length n i : length (one_hot n i) = n.
Proof. unfold one_hot. rewrite map_length, seq_length; auto. Qed.
Lemma one_hot_S n i : one_hot (S n) (S i) = 0 :: one_hot n i.
Proof. unfold one_hot. cbn [seq map]. rewrite <- seq_shift, map_map. reflexivity. Qed.
Lemma one_hot_0 n : one_hot (S n) 0 = 1 :: repeat 0 n.
Proof.
  unfold one_hot. cbn [seq map]. f_equal. rewrite <- seq_shift, map_map.
  change (map (fun _ : nat => 0) (seq 0 n) = repeat 0 n).
  clear. generalize O as s. induction n; intros s; simpl; auto. f_equal. apply IHn.
Qed.

Lemma map2_mul_zero {A} (f : A -> R) (p : list A) n : length p = n ->
  map2 (fun p x => f p * x) p (repeat 0 n) = repeat 0 n.
Proof.
  revert n; induction p as [|a p IH]; intros [|n] H; try discriminate; auto.
  cbn [repeat]. rewrite map2_cons. f_equal; [ring|]. apply IH; auto.
Qed.
Lemma diag_one_hot {A} (f : A -> R) (d : R) (p : list A) n i : length p = n -> (i < n)%nat ->
  map2 (fun p x => f p * x) p (one_hot n i) = repeat 0 i ++ [nth i (map f p) d] ++ repeat 0 (n - i - 1).
Proof.
  revert p i; induction n; intros [|a p] i H Hi; try discriminate; try lia.
  destruct i.
  - rewrite one_hot_0, map2_cons, Rmult_1_r. simpl. rewrite Nat.sub_0_r. f_equal.
    apply map2_mul_zero; auto.
  - rewrite one_hot_S, map2_cons, Rmult_0_r. simpl. f_equal. simpl in H. apply IHn; auto; lia.
Qed.
Lemma rsum_repeat0 n : rsum (repeat 0 n) = 0.
Proof. induction n; simpl; auto. fold (rsum (repeat 0 n)). rewrite IHn; ring. Qed.

Lemma map2_repeat_r {A B C} (f : A -> B -> C) (l : list A) (b : B) :
  map2 f l (repeat b (length l)) = map (fun a => f a b) l.
Proof. induction l as [|a l IH]; auto. cbn [length repeat map]. rewrite map2_cons, IH; auto. Qed.

Lemma map_ext_forall {A B} (f g : A -> B) l (Q : A -> Prop) : Forall Q l -> (forall a, Q a -> f a = g a) -> map f l = map g l.
Proof. intros H E. apply map_ext_in. intros a Ha. apply E. rewrite Forall_forall in H; auto. Qed.

Lemma insert_ok slice n i : Forall (fun r : row => length r = 1%nat) slice -> (i < n)%nat ->
  insert_slice_in_zeros slice n i = Ok (map (fun r => repeat 0 i ++ r ++ repeat 0 (n - i - 1)) slice).
Proof.
  intros H Hi. unfold insert_slice_in_zeros.
  replace (forallb _ slice) with true.
  - destruct (Nat.ltb_spec i n); [auto|lia].
  - symmetry. apply forallb_forall. intros r Hr. rewrite Forall_forall in H. rewrite H by auto. auto.
Qed.
Lemma column_ok n t i : (i < n)%nat -> column n t i = Ok (map (fun r => [nth i r 0]) t).
Proof. unfold column. intros; destruct (Nat.ltb_spec i n); [auto|lia]. Qed.
Lemma slices_len {A} (f : A -> R) t : Forall (fun r : row => length r = 1%nat) (map (fun r => [f r]) t).
Proof. apply Forall_forall. intros r Hr. apply in_map_iff in Hr as [a [<- _]]. auto. Qed.

Lemma split_one_hot n i : (i < 2 * n)%nat ->
  firstn n (one_hot (2 * n) i) = (if Nat.ltb i n then one_hot n i else repeat 0 n) /\
  skipn n (one_hot (2 * n) i) = (if Nat.ltb i n then repeat 0 n else one_hot n (i - n)).
Proof.
  intros Hi.
  assert (G : forall a b i, (i < a + b)%nat ->
    firstn a (one_hot (a + b) i) = (if Nat.ltb i a then one_hot a i else repeat 0 a) /\
    skipn a (one_hot (a + b) i) = (if Nat.ltb i a then repeat 0 b else one_hot b (i - a))).
  { clear. induction a; intros b i Hi; simpl Nat.add.
    - simpl. rewrite Nat.sub_0_r. split; auto.
    - destruct i.
      + rewrite !one_hot_0. simpl. rewrite repeat_app. rewrite firstn_app, skipn_app, !repeat_length, Nat.sub_diag.
        rewrite firstn_O, app_nil_r. simpl.
        rewrite <- (repeat_length 0 a) at 1. rewrite firstn_all.
        replace (skipn a (repeat 0 a)) with (@nil R); [auto|].
        rewrite <- (repeat_length 0 a) at 1. rewrite skipn_all; auto.
      + rewrite !one_hot_S. simpl firstn; simpl skipn. destruct (IHa b i ltac:(lia)) as [-> ->].
        replace (Nat.ltb (S i) (S a)) with (Nat.ltb i a) by reflexivity.
        destruct (Nat.ltb i a); simpl; split; auto. }
  replace (2 * n)%nat with (n + n)%nat by lia. apply G. lia.
Qed.

Lemma cat_one_hot p n i : length p = n -> (i < n)%nat ->
  cat_B p (one_hot n i) =
  map2 Rminus (repeat 0 i ++ [nth i (map sqrt p) 0] ++ repeat 0 (n - i - 1)) (rscale (nth i (map sqrt p) 0) p).
Proof.
  intros Hp Hi. unfold cat_B. cbv zeta.
  replace (map2 Rmult (map sqrt p) (one_hot n i)) with (repeat 0 i ++ [nth i (map sqrt p) 0] ++ repeat 0 (n - i - 1)).
  - do 2 f_equal. rewrite !rsum_app, !rsum_repeat0. simpl. ring.
  - rewrite map2_map_l. symmetry. apply (diag_one_hot sqrt); auto.
Qed.

Lemma map2_map_both {A B C D} (f : B -> C -> D) (g : A -> B) (h : A -> C) l :
  map2 f (map g l) (map h l) = map (fun a => f (g a) (h a)) l.
Proof. induction l as [|a l IH]; auto. cbn [map]. rewrite map2_cons, IH; auto. Qed.
Lemma map2_self_map {A C D} (f : A -> C -> D) (h : A -> C) l :
  map2 f l (map h l) = map (fun a => f a (h a)) l.
Proof. induction l as [|a l IH]; auto. cbn [map]. rewrite map2_cons, IH; auto. Qed.

Theorem one_hot_is_column l i : wf_loss l -> (i < inner_width l)%nat ->
  multiply_fisher_factor_replicated_one_hot l [i] =
  multiply_fisher_factor l (V1 (replicated_one_hot (batch l) (inner_width l) i)).
Proof.
  unfold replicated_one_hot. destruct l as [n z|n z|n m var|n m s]; simpl wf_loss; unfold inner_width; simpl batch; intros Hw Hi.
  - cbn [multiply_fisher_factor_replicated_one_hot multiply_fisher_factor]. cbv zeta. rewrite probs_cat.
    rewrite column_ok by auto. cbn [bind].
    rewrite insert_ok by (auto; apply slices_len). cbn [bind].
    do 2 f_equal. rewrite !map_map, !map2_map_both, map2_map_l, map2_repeat_r.
    apply (map_ext_forall _ _ _ (fun r => length r = n)); [apply Hw|].
    intros r Hr. symmetry. apply (cat_one_hot (softmax r)); rewrite ?softmax_length; auto.
  - destruct Hw as [_ Hw].
    cbn [multiply_fisher_factor_replicated_one_hot multiply_fisher_factor probs].
    rewrite column_ok by auto. cbn [bind]. rewrite !map_map. cbn [map].
    rewrite insert_ok by (auto; apply (slices_len (fun r => _))). cbn [bind].
    do 2 f_equal. rewrite map2_map_l, map2_repeat_r, map_map.
    apply (map_ext_forall _ _ _ (fun r => length r = n)); auto.
    intros r Hr. rewrite (diag_one_hot (fun p => sqrt (p * (1 - p))) (sqrt (0 * (1 - 0)))) by (rewrite ?map_length; auto).
    rewrite (map_nth (fun p => sqrt (p * (1 - p))) (map sigmoid r) 0). reflexivity.
  - destruct Hw as [[_ Hw] _].
    cbn [multiply_fisher_factor_replicated_one_hot multiply_fisher_factor]. cbv zeta.
    unfold tscale. rewrite !map_map. cbn [rscale map].
    rewrite insert_ok by (auto; apply (slices_len (fun r => _))). cbn [bind].
    do 2 f_equal. rewrite map_map.
    replace (length m) with (length (map (fun _ : row => one_hot n i) m)) by apply map_length.
    replace (repeat (one_hot n i) (length (map (fun _ : row => one_hot n i) m))) with (map (fun _ : row => one_hot n i) m).
    2:{ rewrite map_length. clear. induction m; simpl; f_equal; auto. }
    rewrite map_map. apply map_ext. intros _. fold (rscale (/ sqrt var) (one_hot n i)).
    clear - Hi. revert i Hi; induction n; intros i Hi; [lia|]. destruct i.
    + rewrite one_hot_0. cbn [rscale map repeat app]. f_equal. simpl. rewrite Nat.sub_0_r.
      clear. induction n; simpl; f_equal; auto; ring.
    + rewrite one_hot_S. cbn [rscale map repeat app]. rewrite Rmult_0_r. f_equal.
      fold (rscale (/ sqrt var) (one_hot n i)). rewrite <- IHn by lia. reflexivity.
  - destruct Hw as [Hm [[Hs1 Hs2] Hpos]].
    cbn [multiply_fisher_factor_replicated_one_hot multiply_fisher_factor]. unfold split2.
    assert (Hrep : forall (f : row -> row) b, map f (repeat b (length m)) = repeat (f b) (length s)).
    { intros f b. rewrite <- Hs1. clear. induction (length s); simpl; f_equal; auto. }
    rewrite !Hrep. destruct (split_one_hot n i Hi) as [-> ->]. rewrite !map2_repeat_r.
    destruct (Nat.ltb_spec i n).
    + rewrite column_ok by auto. cbn [bind]. rewrite map_map.
      rewrite insert_ok by (auto; apply (slices_len (fun r => _))). cbn [bind].
      do 2 f_equal.
      * rewrite map_map. apply (map_ext_forall _ _ _ (fun r => length r = n)); auto.
        intros r Hr. rewrite (diag_one_hot (fun s => 1 / sqrt s) 0) by auto. reflexivity.
      * rewrite !map_map. apply (map_ext_forall _ _ _ (fun r => length r = n)); auto.
        intros r Hr. rewrite (map2_mul_zero (fun s => 1 / (sqrt 2 * s))) by auto.
        rewrite !map_app. cbn [map].
        assert (Hz : forall k, map (fun _ : R => 0) (repeat 0 k) = repeat 0 k) by (induction k; simpl; f_equal; auto).
        rewrite !Hz. change ([0] : list R) with (repeat 0 1). rewrite <- !repeat_app. f_equal. lia.
    + rewrite column_ok by lia. cbn [bind]. rewrite map_map.
      rewrite insert_ok by (try lia; apply (slices_len (fun r => _))). cbn [bind].
      do 2 f_equal.
      * rewrite !map_map. apply (map_ext_forall _ _ _ (fun r => length r = n)); auto.
        intros r Hr. rewrite (map2_mul_zero (fun s => 1 / sqrt s)) by auto.
        rewrite !map_app. cbn [map].
        assert (Hz : forall k, map (fun _ : R => 0) (repeat 0 k) = repeat 0 k) by (induction k; simpl; f_equal; auto).
        rewrite !Hz. change ([0] : list R) with (repeat 0 1). rewrite <- !repeat_app. f_equal. lia.
      * rewrite map_map. apply (map_ext_forall _ _ _ (fun r => length r = n)); auto.
        intros r Hr. rewrite (diag_one_hot (fun s => 1 / (sqrt 2 * s)) 0) by (auto; lia). reflexivity.
Qed.

Theorem one_hot_out_of_range l i : (inner_width l <= i)%nat ->
  exists e, multiply_fisher_factor_replicated_one_hot l [i] = Raise e.
Proof.
  destruct l as [n z|n z|n m var|n m s]; unfold inner_width; intros Hi;
    cbn [multiply_fisher_factor_replicated_one_hot]; cbv zeta; unfold column, insert_slice_in_zeros.
  - destruct (Nat.ltb_spec i n); [lia|]. simpl; eauto.
  - destruct (Nat.ltb_spec i n); [lia|]. simpl; eauto.
  - destruct (Nat.ltb_spec i n); [lia|]. destruct (forallb _ _); simpl; eauto.
  - destruct (Nat.ltb_spec i n); [lia|]. destruct (Nat.ltb_spec (i - n) n); [lia|]. simpl; eauto.
Qed.

Lemma one_hot_column_exists l i : wf_loss l -> (i < inner_width l)%nat ->
  exists w, multiply_fisher_factor_replicated_one_hot l [i] = Ok w /\
    multiply_fisher_factor l (V1 (replicated_one_hot (batch l) (inner_width l) i)) = Ok w /\ input_like l w.
Proof.
  intros W Hi. rewrite (one_hot_is_column l i W Hi).
  assert (Hz : exists v, input_like l v).
  { destruct l as [n z|n z|n m var|n m s]; simpl in W.
    - exists (V1 z); auto.
    - exists (V1 z); auto.
    - exists (V1 m); apply W.
    - exists (V2 m m); split; apply W. }
  destruct Hz as [v Hv].
  destruct (factor_adjoint l (V1 (replicated_one_hot (batch l) (inner_width l) i)) v W) as (w & x & E & _ & Hw & _); auto.
  - split; [apply repeat_length|]. apply Forall_forall. intros r Hr. apply repeat_spec in Hr; subst. apply one_hot_length.
  - eauto.
Qed.
