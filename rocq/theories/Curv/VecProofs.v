(** Linear algebra on lists of reals and lists of rows. *)
From Coq Require Import List Arith Bool Reals Lra Lia.
From Verif.Base Require Import Py ListFacts.
From Verif.Curv Require Import Model Spec.
Import ListNotations.
Open Scope list_scope.
Open Scope R_scope.

Lemma map2_nil_l {A B C} (f : A -> B -> C) m : map2 f [] m = [].
Proof. reflexivity. Qed.
Lemma map2_cons {A B C} (f : A -> B -> C) a l b m : map2 f (a :: l) (b :: m) = f a b :: map2 f l m.
Proof. reflexivity. Qed.
Lemma map2_length {A B C} (f : A -> B -> C) l m : length (map2 f l m) = Nat.min (length l) (length m).
Proof. unfold map2. rewrite map_length. apply length_zip. Qed.
Lemma map2_length_eq {A B C} (f : A -> B -> C) l m n :
  length l = n -> length m = n -> length (map2 f l m) = n.
Proof. intros; rewrite map2_length; lia. Qed.
Lemma rscale_length a x : length (rscale a x) = length x.
Proof. apply map_length. Qed.

Lemma nth_map2 {A B C} (f : A -> B -> C) l m i a b c :
  (i < length l)%nat -> (i < length m)%nat -> nth i (map2 f l m) c = f (nth i l a) (nth i m b).
Proof.
  revert m i; induction l as [|x l IH]; intros [|y m] [|i]; simpl; intros; try lia; auto.
  apply IH; lia.
Qed.

Lemma nth_rscale a x i : nth i (rscale a x) 0 = a * nth i x 0.
Proof.
  unfold rscale. destruct (Nat.lt_ge_cases i (length x)).
  - rewrite (nth_indep _ 0 (a * 0)) by (rewrite map_length; auto). rewrite map_nth; auto.
  - rewrite !nth_overflow; try rewrite map_length; auto. ring.
Qed.

Lemma rsum_app l m : rsum (l ++ m) = rsum l + rsum m.
Proof. induction l; simpl; [ring|rewrite IHl; ring]. Qed.
Lemma rsum_scale a l : rsum (rscale a l) = a * rsum l.
Proof. unfold rscale. induction l; simpl; [ring|rewrite IHl; ring]. Qed.
Lemma rsum_add x y : length x = length y -> rsum (map2 Rplus x y) = rsum x + rsum y.
Proof.
  revert y; induction x as [|a x IH]; intros [|b y] H; try discriminate; [simpl; ring|].
  change (rsum (map2 Rplus (a :: x) (b :: y))) with (a + b + rsum (map2 Rplus x y)).
  simpl in H. rewrite IH by lia. simpl. ring.
Qed.
Lemma rsum_sub x y : length x = length y -> rsum (map2 Rminus x y) = rsum x - rsum y.
Proof.
  revert y; induction x as [|a x IH]; intros [|b y] H; try discriminate; [simpl; ring|].
  change (rsum (map2 Rminus (a :: x) (b :: y))) with (a - b + rsum (map2 Rminus x y)).
  simpl in H. rewrite IH by lia. simpl. ring.
Qed.

Lemma dot_cons a x b y : dot (a :: x) (b :: y) = a * b + dot x y.
Proof. reflexivity. Qed.
Lemma dot_nil_l y : dot [] y = 0.
Proof. reflexivity. Qed.
Lemma dot_nil_r x : dot x [] = 0.
Proof. destruct x; reflexivity. Qed.
Lemma dot_comm x y : dot x y = dot y x.
Proof.
  revert y; induction x as [|a x IH]; intros [|b y]; auto.
  rewrite !dot_cons, IH. ring.
Qed.
Lemma dot_scale_l a x y : dot (rscale a x) y = a * dot x y.
Proof.
  revert y; induction x as [|b x IH]; intros [|c y]; simpl; try (rewrite ?dot_nil_r; ring);
    [rewrite !dot_nil_l; ring|].
  change (rscale a (b :: x)) with (a * b :: rscale a x). rewrite !dot_cons.
  fold (rscale a x). rewrite IH. ring.
Qed.
Lemma dot_scale_r a x y : dot x (rscale a y) = a * dot x y.
Proof. rewrite dot_comm, dot_scale_l, dot_comm. reflexivity. Qed.
Lemma dot_add_l x y z : length x = length y -> dot (radd x y) z = dot x z + dot y z.
Proof.
  unfold radd. revert y z; induction x as [|a x IH]; intros [|b y] [|c z] H; simpl in H; try discriminate;
    rewrite ?dot_nil_r, ?dot_nil_l; try ring.
  rewrite map2_cons, !dot_cons, IH by lia. ring.
Qed.
Lemma dot_add_r x y z : length y = length z -> dot x (radd y z) = dot x y + dot x z.
Proof. intros; rewrite dot_comm, dot_add_l, (dot_comm y), (dot_comm z) by auto. reflexivity. Qed.
Lemma dot_sub_l x y z : length x = length y -> dot (map2 Rminus x y) z = dot x z - dot y z.
Proof.
  revert y z; induction x as [|a x IH]; intros [|b y] [|c z] H; simpl in H; try discriminate;
    rewrite ?dot_nil_r, ?dot_nil_l; try ring.
  rewrite map2_cons, !dot_cons, IH by lia. ring.
Qed.
Lemma dot_sub_r x y z : length y = length z -> dot x (map2 Rminus y z) = dot x y - dot x z.
Proof. intros; rewrite dot_comm, dot_sub_l, (dot_comm y), (dot_comm z) by auto. reflexivity. Qed.
Lemma dot_self_nonneg x : 0 <= dot x x.
Proof. induction x as [|a x IH]; [rewrite dot_nil_l; lra|]. rewrite dot_cons. nra. Qed.
Lemma dot_mul_l p x y : dot (map2 Rmult p x) y = dot x (map2 Rmult p y).
Proof.
  revert x y; induction p as [|a p IH]; intros [|b x] [|c y]; simpl; rewrite ?dot_nil_r, ?dot_nil_l; auto.
  rewrite !map2_cons, !dot_cons, IH. ring.
Qed.
Lemma map2_mult_comm x y : map2 Rmult x y = map2 Rmult y x.
Proof. revert y; induction x as [|a x IH]; intros [|b y]; auto. rewrite !map2_cons, IH. f_equal; ring. Qed.

(** Tensors. *)
Lemma tdot_cons a x b y : tdot (a :: x) (b :: y) = dot a b + tdot x y.
Proof. reflexivity. Qed.
Lemma tdot_nil_l y : tdot [] y = 0.
Proof. reflexivity. Qed.
Lemma tdot_nil_r x : tdot x [] = 0.
Proof. destruct x; reflexivity. Qed.
Lemma tdot_comm x y : tdot x y = tdot y x.
Proof.
  revert y; induction x as [|a x IH]; intros [|b y]; auto. rewrite !tdot_cons, IH, dot_comm; auto.
Qed.
Lemma tdot_scale_l a x y : tdot (tscale a x) y = a * tdot x y.
Proof.
  revert y; induction x as [|b x IH]; intros [|c y]; simpl; rewrite ?tdot_nil_r, ?tdot_nil_l; try ring.
  rewrite !tdot_cons, dot_scale_l. fold (tscale a x). rewrite IH. ring.
Qed.
Lemma tdot_scale_r a x y : tdot x (tscale a y) = a * tdot x y.
Proof. rewrite tdot_comm, tdot_scale_l, tdot_comm; auto. Qed.

Lemma shape_cons a (x : tensor) b y : map (@length R) (a :: x) = map (@length R) (b :: y) ->
  length a = length b /\ map (@length R) x = map (@length R) y.
Proof. simpl; intros H; injection H; auto. Qed.

Lemma tdot_add_l x y z : map (@length R) x = map (@length R) y -> tdot (tadd x y) z = tdot x z + tdot y z.
Proof.
  unfold tadd. revert y z; induction x as [|a x IH]; intros [|b y] [|c z] H; try discriminate;
    rewrite ?tdot_nil_r, ?tdot_nil_l; try ring.
  apply shape_cons in H as [H1 H2].
  rewrite map2_cons, !tdot_cons, dot_add_l, IH by auto. ring.
Qed.
Lemma tdot_add_r x y z : map (@length R) y = map (@length R) z -> tdot x (tadd y z) = tdot x y + tdot x z.
Proof. intros; rewrite tdot_comm, tdot_add_l, (tdot_comm y), (tdot_comm z) by auto; auto. Qed.
Lemma tdot_self_nonneg x : 0 <= tdot x x.
Proof.
  induction x as [|a x IH]; [rewrite tdot_nil_l; lra|]. rewrite tdot_cons.
  pose proof (dot_self_nonneg a). lra.
Qed.

Lemma tscale_shape a x : map (@length R) (tscale a x) = map (@length R) x.
Proof. unfold tscale. rewrite map_map. apply map_ext. intros; apply rscale_length. Qed.
Lemma tadd_shape x y : map (@length R) x = map (@length R) y ->
  map (@length R) (tadd x y) = map (@length R) x.
Proof.
  unfold tadd. revert y; induction x as [|a x IH]; intros [|b y] H; try discriminate; auto.
  apply shape_cons in H as [H1 H2]. rewrite map2_cons. cbn [map]. f_equal; auto.
  apply map2_length_eq; auto.
Qed.

Lemma shaped_shape b n x : shaped b n x <-> map (@length R) x = repeat n b.
Proof.
  unfold shaped. revert b; induction x as [|a x IH]; intros b; simpl.
  - split; [intros [<- _]; auto|]. intros H; destruct b; [auto|discriminate].
  - split.
    + intros [<- H]. simpl. inversion H; subst. f_equal. apply IH; auto.
    + intros H. destruct b; simpl in H; [discriminate|]. injection H as H1 H2.
      apply IH in H2 as [<- H2]. auto.
Qed.
Lemma shaped_cons b n a x : shaped b n (a :: x) -> exists b', b = S b' /\ length a = n /\ shaped b' n x.
Proof. intros [<- H]. inversion H; subst. exists (length x). split; [auto|split; [auto|split; auto]]. Qed.
Lemma shaped_nil b n : shaped b n [] -> b = O.
Proof. intros [<- _]; auto. Qed.
Lemma shaped_S b n a x : length a = n -> shaped b n x -> shaped (S b) n (a :: x).
Proof. intros H [H1 H2]; split; simpl; auto. Qed.

(** Row-wise maps against a fixed tensor of row parameters. *)
Lemma map2_rows_ext {A} (f g : A -> row -> row) (P : list A) (v : tensor) b n (Q : A -> Prop) :
  shaped b n v -> length P = b -> Forall Q P ->
  (forall p x, Q p -> length x = n -> f p x = g p x) -> map2 f P v = map2 g P v.
Proof.
  revert P b; induction v as [|x v IH]; intros [|p P] b Hs HP HQ H; simpl in *; auto;
    try (apply shaped_cons in Hs as [b' [-> [? ?]]]; discriminate).
  apply shaped_cons in Hs as [b' [-> [Hx Hs]]]. inversion HQ; subst.
  rewrite !map2_cons. f_equal; [apply H; auto|]. eapply IH; eauto.
Qed.

Lemma map2_rows_shaped {A} (f : A -> row -> row) (P : list A) (v : tensor) b n m (Q : A -> Prop) :
  shaped b n v -> length P = b -> Forall Q P ->
  (forall p x, Q p -> length x = n -> length (f p x) = m) -> shaped b m (map2 f P v).
Proof.
  revert P b; induction v as [|x v IH]; intros [|p P] b Hs HP HQ H; simpl in *;
    try (apply shaped_cons in Hs as [b' [-> [? ?]]]; discriminate).
  - subst. split; auto. constructor.
  - apply shaped_nil in Hs. subst; discriminate.
  - apply shaped_cons in Hs as [b' [-> [Hx Hs]]]. inversion HQ; subst.
    rewrite map2_cons. apply shaped_S; [apply H; auto|]. eapply IH; eauto.
Qed.

Lemma map2_rows_compose {A} (f g : A -> row -> row) (P : list A) (v : tensor) :
  map2 f P (map2 g P v) = map2 (fun p x => f p (g p x)) P v.
Proof. revert v; induction P as [|p P IH]; intros [|x v]; auto. rewrite !map2_cons, IH; auto. Qed.

Lemma map2_rows_adjoint {A} (f g : A -> row -> row) (P : list A) (u v : tensor) b n m (Q : A -> Prop) :
  shaped b n u -> shaped b m v -> length P = b -> Forall Q P ->
  (forall p x y, Q p -> length x = n -> length y = m -> dot (f p x) y = dot x (g p y)) ->
  tdot (map2 f P u) v = tdot u (map2 g P v).
Proof.
  revert P b v; induction u as [|x u IH]; intros [|p P] b [|y v] Hu Hv HP HQ H; simpl in *;
    rewrite ?tdot_nil_l, ?tdot_nil_r; auto;
    try (apply shaped_cons in Hu as [b' [-> [? ?]]]; discriminate).
  apply shaped_cons in Hu as [b' [-> [Hx Hu]]]. apply shaped_cons in Hv as [b'' [E [Hy Hv]]].
  injection E as <-. inversion HQ; subst.
  rewrite !map2_cons, !tdot_cons. rewrite (H p x y) by auto. f_equal. eapply IH; eauto.
Qed.

(** Sums over indices. *)
Lemma sum_n_S n f : sum_n (S n) f = f O + sum_n n (fun k => f (S k)).
Proof. unfold sum_n. simpl. f_equal. rewrite <- seq_shift, map_map. reflexivity. Qed.
Lemma sum_n_0 f : sum_n 0 f = 0.
Proof. reflexivity. Qed.
Lemma sum_n_ext n f g : (forall k, (k < n)%nat -> f k = g k) -> sum_n n f = sum_n n g.
Proof.
  revert f g; induction n; intros f g H; [reflexivity|].
  rewrite !sum_n_S. rewrite (H O) by lia. f_equal. apply IHn. intros; apply H; lia.
Qed.
Lemma sum_n_add n f g : sum_n n (fun k => f k + g k) = sum_n n f + sum_n n g.
Proof. revert f g; induction n; intros; [rewrite !sum_n_0; ring|]. rewrite !sum_n_S, IHn. ring. Qed.
Lemma sum_n_sub n f g : sum_n n (fun k => f k - g k) = sum_n n f - sum_n n g.
Proof. revert f g; induction n; intros; [rewrite !sum_n_0; ring|]. rewrite !sum_n_S, IHn. ring. Qed.
Lemma sum_n_scale n a f : sum_n n (fun k => a * f k) = a * sum_n n f.
Proof. revert f; induction n; intros; [rewrite !sum_n_0; ring|]. rewrite !sum_n_S, IHn. ring. Qed.
Lemma sum_n_zero n f : (forall k, (k < n)%nat -> f k = 0) -> sum_n n f = 0.
Proof.
  intros H. rewrite (sum_n_ext n f (fun k => 0 * 0)) by (intros; rewrite H by auto; ring).
  rewrite sum_n_scale. ring.
Qed.
Lemma delta_refl i : delta i i = 1.
Proof. unfold delta. rewrite Nat.eqb_refl; auto. Qed.
Lemma delta_neq i j : i <> j -> delta i j = 0.
Proof. unfold delta. intros H. destruct (Nat.eqb_spec i j); tauto. Qed.
Lemma delta_S i j : delta (S i) (S j) = delta i j.
Proof. reflexivity. Qed.
Lemma sum_n_delta n i f : (i < n)%nat -> sum_n n (fun k => delta i k * f k) = f i.
Proof.
  revert i f; induction n; intros i f H; [lia|]. rewrite sum_n_S. destruct i.
  - rewrite delta_refl, (sum_n_zero n); [ring|]. intros; rewrite delta_neq by lia. ring.
  - rewrite delta_neq by lia.
    rewrite (sum_n_ext n _ (fun k => delta i k * f (S k))) by (intros; rewrite delta_S; auto).
    rewrite IHn by lia. ring.
Qed.
Lemma sum_n_app n m f : sum_n (n + m) f = sum_n n f + sum_n m (fun k => f (n + k)%nat).
Proof.
  revert f; induction n; intros f; [rewrite sum_n_0, Rplus_0_l; reflexivity|].
  cbn [Nat.add]. rewrite !sum_n_S, IHn. cbn [Nat.add]. ring.
Qed.
Lemma dot_sum x y n : length x = n -> length y = n ->
  dot x y = sum_n n (fun k => nth k x 0 * nth k y 0).
Proof.
  revert x y; induction n; intros [|a x] [|b y] Hx Hy; try discriminate; [reflexivity|].
  rewrite dot_cons, sum_n_S. cbn [nth]. f_equal. apply IHn; auto.
Qed.
Lemma rsum_sum x : rsum x = sum_n (length x) (fun k => nth k x 0).
Proof. induction x as [|a x IH]; [reflexivity|]. simpl length. rewrite sum_n_S. simpl. rewrite IH. reflexivity. Qed.
Lemma sum_n_swap n m f : sum_n n (fun i => sum_n m (fun j => f i j)) = sum_n m (fun j => sum_n n (fun i => f i j)).
Proof.
  revert f; induction n; intros f.
  - rewrite sum_n_0, sum_n_zero; auto.
  - rewrite sum_n_S, IHn, <- sum_n_add. apply sum_n_ext. intros; rewrite sum_n_S; auto.
Qed.

(** Softmax. *)
Lemma rsum_exp_pos r : r <> [] -> 0 < rsum (map exp r).
Proof.
  destruct r as [|a r]; [congruence|]. intros _. simpl.
  assert (0 <= rsum (map exp r)).
  { induction r as [|b r IH]; simpl; [lra|]. pose proof (exp_pos b). lra. }
  pose proof (exp_pos a). lra.
Qed.
Lemma softmax_length r : length (softmax r) = length r.
Proof. unfold softmax. apply map_length. Qed.
Lemma softmax_nonneg r : Forall (fun p => 0 <= p) (softmax r).
Proof.
  unfold softmax. apply Forall_forall. intros x Hx. apply in_map_iff in Hx as [a [<- Ha]].
  apply Rlt_le, Rdiv_lt_0_compat; [apply exp_pos|apply rsum_exp_pos]. intros ->; contradiction.
Qed.
Lemma softmax_sum r : r <> [] -> rsum (softmax r) = 1.
Proof.
  intros H. pose proof (rsum_exp_pos r H) as Hp. unfold softmax.
  set (s := rsum (map exp r)) in *.
  assert (E : forall l, rsum (map (fun x => exp x / s) l) = rsum (map exp l) / s).
  { induction l as [|a l IH]; simpl; [field; lra|]. rewrite IH. field; lra. }
  rewrite E. fold s. field. lra.
Qed.
Lemma sigmoid_range x : 0 < sigmoid x < 1.
Proof.
  unfold sigmoid. pose proof (exp_pos (- x)). split.
  - apply Rdiv_lt_0_compat; lra.
  - apply (Rmult_lt_reg_r (1 + exp (- x))); [lra|]. field_simplify; lra.
Qed.
