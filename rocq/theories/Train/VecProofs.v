(** Facts about lists of tensors and their inner products. *)
From Coq Require Import List Arith Bool Reals Lra Lia.
From Verif.Base Require Import Py.
From Verif.Train Require Import Model Spec.
Import ListNotations.
Open Scope list_scope.
Open Scope R_scope.

Lemma sum_to_ext n f g : (forall i, (i < n)%nat -> f i = g i) -> sum_to n f = sum_to n g.
Proof.
  induction n; intros H; simpl; [reflexivity|].
  rewrite IHn by (intros; apply H; lia). rewrite H by lia. reflexivity.
Qed.

Lemma sum_to_shift n f : sum_to (S n) f = f 0%nat + sum_to n (fun i => f (S i)).
Proof.
  induction n.
  - simpl. lra.
  - change (sum_to (S (S n)) f) with (sum_to (S n) f + f (S n)). rewrite IHn. simpl. lra.
Qed.

Lemma sum_to_scale n a f : sum_to n (fun i => a * f i) = a * sum_to n f.
Proof. induction n; simpl; [lra|]. rewrite IHn. lra. Qed.

Lemma sum_to_plus n f g : sum_to n (fun i => f i + g i) = sum_to n f + sum_to n g.
Proof. induction n; simpl; [lra|]. rewrite IHn. lra. Qed.

Lemma sum_to_zero n f : (forall i, (i < n)%nat -> f i = 0) -> sum_to n f = 0.
Proof.
  intros H. induction n; simpl; [reflexivity|].
  rewrite IHn by (intros; apply H; lia). rewrite H by lia. lra.
Qed.

Lemma sum_to_nonneg n f : (forall i, (i < n)%nat -> 0 <= f i) -> 0 <= sum_to n f.
Proof.
  intros H. induction n; simpl; [lra|].
  assert (0 <= sum_to n f) by (apply IHn; intros; apply H; lia).
  assert (0 <= f n) by (apply H; lia). lra.
Qed.

(* ------------------------------------------------------------------------ *)

Lemma dot_sum x : forall y, length x = length y ->
  dot x y = sum_to (length x) (fun j => coord j x * coord j y).
Proof.
  induction x as [|a x IH]; intros [|b y] H; try discriminate; [reflexivity|].
  injection H as H. cbn [length]. rewrite sum_to_shift. unfold dot, coord in *.
  cbn [zip map rsum fold_right fst snd nth]. unfold rsum in IH. rewrite (IH y H). reflexivity.
Qed.

Lemma dot_comm x : forall y, dot x y = dot y x.
Proof.
  induction x as [|a x IH]; intros [|b y]; try reflexivity.
  unfold dot in *. simpl. rewrite IH. lra.
Qed.

Lemma inner_cons u x v y :
  inner (u :: x) (v :: y) =
  sum_to (length u) (fun j => coord j u * coord j v) + inner x y.
Proof. unfold inner. cbn [length]. rewrite sum_to_shift. reflexivity. Qed.

Lemma inner_nil y : inner [] y = 0. Proof. reflexivity. Qed.

Lemma same_shape_cons u x v y :
  same_shape (u :: x) (v :: y) <-> length u = length v /\ same_shape x y.
Proof.
  unfold same_shape. cbn [map]. split.
  - intros H. injection H as H1 H2. auto.
  - intros [H1 H2]. rewrite H1, H2. reflexivity.
Qed.

Lemma same_shape_refl x : same_shape x x. Proof. reflexivity. Qed.
Lemma same_shape_sym x y : same_shape x y -> same_shape y x.
Proof. unfold same_shape. congruence. Qed.
Lemma same_shape_trans x y z : same_shape x y -> same_shape y z -> same_shape x z.
Proof. unfold same_shape. congruence. Qed.
Lemma same_shape_length x y : same_shape x y -> length x = length y.
Proof.
  intros H. rewrite <- (map_length (@length R) x), <- (map_length (@length R) y).
  unfold same_shape in H. rewrite H. reflexivity.
Qed.

(** The optimizer's inner product is the mathematical one. *)
Lemma rsum_inner x : forall y, same_shape x y ->
  rsum (map (fun p => dot (fst p) (snd p)) (zip x y)) = inner x y.
Proof.
  induction x as [|u x IH]; intros [|v y] H; try discriminate H; [reflexivity|].
  apply same_shape_cons in H. destruct H as [H1 H2].
  rewrite inner_cons. cbn [zip map rsum fold_right fst snd].
  rewrite (dot_sum _ _ H1). unfold rsum in IH. rewrite (IH _ H2). reflexivity.
Qed.

Lemma ip_inner x y : same_shape x y -> x <> [] -> ip x y = Ok (inner x y).
Proof.
  intros S N. unfold ip. destruct (zip x y) eqn:Z.
  - destruct x as [|u x]; [congruence|]. destruct y; [discriminate S|discriminate Z].
  - rewrite <- Z. rewrite (rsum_inner _ _ S). reflexivity.
Qed.

Lemma check_match_same l1 : forall l2, map snd l1 = map snd l2 -> check_match l1 l2 = true.
Proof.
  unfold check_match.
  induction l1 as [|[v k] l1 IH]; intros [|[w k'] l2] H; try discriminate H; [reflexivity|].
  cbn [map snd] in H. injection H as H1 H2. cbn [zip forallb fst snd].
  rewrite (IH _ H2), H1, Nat.eqb_refl. reflexivity.
Qed.

Lemma ip_p_inner l1 l2 :
  map snd l1 = map snd l2 -> same_shape (map fst l1) (map fst l2) -> l1 <> [] ->
  ip_p l1 l2 = Ok (inner (map fst l1) (map fst l2)).
Proof.
  intros V S N. unfold ip_p. rewrite (check_match_same _ _ V). apply ip_inner; auto.
  destruct l1; [congruence|discriminate].
Qed.

(* ------------------------------------------------------------------------ *)
(** * Bilinearity *)

Lemma inner_comm x : forall y, same_shape x y -> inner x y = inner y x.
Proof.
  induction x as [|u x IH]; intros [|v y] H; try discriminate H; [reflexivity|].
  apply same_shape_cons in H. destruct H as [H1 H2].
  rewrite !inner_cons, (IH _ H2), H1. f_equal. apply sum_to_ext. intros; lra.
Qed.

Lemma zip_length {A B} (x : list A) : forall (y : list B),
  length x = length y -> length (zip x y) = length x.
Proof.
  induction x; intros [|b y] H; try discriminate H; simpl; [reflexivity|].
  injection H as H. rewrite IHx; auto.
Qed.

Lemma coord_comb a b u : forall v j, length u = length v ->
  coord j (map (fun q : R * R => a * fst q + b * snd q) (zip u v)) = a * coord j u + b * coord j v.
Proof.
  unfold coord.
  induction u as [|x u IH]; intros [|y v] j H; try discriminate H.
  - destruct j; simpl; lra.
  - injection H as H. destruct j; simpl; [reflexivity|]. apply IH, H.
Qed.

Lemma comb_shape a x : forall b y, same_shape x y -> same_shape (comb a x b y) x.
Proof.
  unfold comb. induction x as [|u x IH]; intros b [|v y] H; try discriminate H; [reflexivity|].
  apply same_shape_cons in H. destruct H as [H1 H2].
  cbn [zip map]. apply same_shape_cons. split; [|apply IH, H2].
  cbn [fst snd]. rewrite map_length. apply zip_length, H1.
Qed.

Lemma inner_comb_l a x : forall b y z, same_shape x y -> same_shape x z ->
  inner (comb a x b y) z = a * inner x z + b * inner y z.
Proof.
  unfold comb.
  induction x as [|u x IH]; intros b [|v y] [|w z] H1 H2; try discriminate H1; try discriminate H2.
  - simpl. rewrite !inner_nil. lra.
  - apply same_shape_cons in H1. destruct H1 as [A1 A2].
    apply same_shape_cons in H2. destruct H2 as [B1 B2].
    cbn [zip map]. rewrite !inner_cons, (IH b y z A2 B2). cbn [fst snd].
    rewrite map_length, (zip_length _ _ A1), <- A1.
    rewrite (sum_to_ext (length u) _
              (fun j => a * (coord j u * coord j w) + b * (coord j v * coord j w))).
    + rewrite sum_to_plus, !sum_to_scale. lra.
    + intros j _. rewrite (coord_comb a b u v j A1). lra.
Qed.

Lemma inner_comb_r a x b y z : same_shape x y -> same_shape x z ->
  inner z (comb a x b y) = a * inner z x + b * inner z y.
Proof.
  intros H1 H2.
  rewrite inner_comm by (eapply same_shape_trans; [apply same_shape_sym, H2|];
                         apply same_shape_sym, comb_shape, H1).
  rewrite inner_comb_l by assumption.
  rewrite (inner_comm x z H2).
  rewrite (inner_comm y z) by (eapply same_shape_trans; [apply same_shape_sym, H1|apply H2]).
  reflexivity.
Qed.

Lemma inner_self_nonneg x : 0 <= inner x x.
Proof.
  induction x as [|u x IH]; [rewrite inner_nil; lra|]. rewrite inner_cons.
  assert (0 <= sum_to (length u) (fun j => coord j u * coord j u)).
  { apply sum_to_nonneg. intros. nra. }
  lra.
Qed.

Lemma inner_zero_l x : forall y, (forall u, In u x -> forall j, coord j u = 0) -> inner x y = 0.
Proof.
  induction x as [|u x IH]; intros [|v y] H.
  - reflexivity.
  - reflexivity.
  - unfold inner. apply sum_to_zero. intros i Hi. apply sum_to_zero. intros j _.
    destruct (nth_in_or_default i (u :: x) []) as [I|E].
    + rewrite (H _ I). lra.
    + rewrite E. unfold coord. destruct j; simpl; lra.
  - rewrite inner_cons, IH by (intros; apply H; right; assumption).
    rewrite sum_to_zero; [lra|]. intros j _. rewrite (H u (or_introl eq_refl)). lra.
Qed.

(* ------------------------------------------------------------------------ *)
(** * Scaling *)

Lemma vscale_length a v : length (vscale a v) = length v.
Proof. apply map_length. Qed.
Lemma coord_vscale a v j : coord j (vscale a v) = a * coord j v.
Proof.
  unfold coord, vscale. revert j. induction v as [|x v IH]; intros [|j]; simpl; try lra. apply IH.
Qed.
Lemma vadd_length x y : length x = length y -> length (vadd x y) = length x.
Proof. intros H. unfold vadd. rewrite map_length. apply zip_length, H. Qed.
Lemma coord_vadd x : forall y j, length x = length y -> coord j (vadd x y) = coord j x + coord j y.
Proof.
  unfold coord, vadd.
  induction x as [|a x IH]; intros [|b y] j H; try discriminate H.
  - destruct j; simpl; lra.
  - injection H as H. destruct j; simpl; [reflexivity|]. apply IH, H.
Qed.

Lemma sprod_p_snd a l : map snd (sprod_p a l) = map snd l.
Proof. unfold sprod_p. rewrite map_map. apply map_ext. intros []; reflexivity. Qed.
Lemma sprod_p_fst a l : map fst (sprod_p a l) = sprod a (map fst l).
Proof. unfold sprod_p, sprod. rewrite !map_map. apply map_ext. intros []; reflexivity. Qed.
Lemma sprod_shape a x : same_shape (sprod a x) x.
Proof.
  unfold same_shape, sprod. rewrite map_map. apply map_ext. intros. apply vscale_length.
Qed.
Lemma inner_sprod_l a x : forall y, inner (sprod a x) y = a * inner x y.
Proof.
  induction x as [|u x IH]; intros y.
  - unfold inner. simpl. lra.
  - destruct y as [|v y].
    + unfold inner. rewrite <- sum_to_scale. unfold sprod. rewrite map_length.
      apply sum_to_ext. intros i _. rewrite <- sum_to_scale.
      change (@nil R) with (vscale a []) at 1.
      change (@nil R) with (vscale a []) at 2. rewrite !map_nth.
      rewrite vscale_length. apply sum_to_ext. intros j _. rewrite coord_vscale. lra.
    + change (sprod a (u :: x)) with (vscale a u :: sprod a x).
      rewrite !inner_cons, IH, vscale_length, Rmult_plus_distr_l, <- sum_to_scale. f_equal.
      apply sum_to_ext. intros j _. rewrite coord_vscale. lra.
Qed.
Lemma inner_sprod_r a x y : same_shape x y -> inner x (sprod a y) = a * inner x y.
Proof.
  intros H. rewrite inner_comm, inner_sprod_l.
  - rewrite inner_comm by (apply same_shape_sym, H). reflexivity.
  - eapply same_shape_trans; [exact H|]. apply same_shape_sym, sprod_shape.
Qed.

Lemma entry_of_sprod a k j l : entry_of k j (sprod_p a l) = a * entry_of k j l.
Proof.
  induction l as [|[v k'] l IH]; simpl; [lra|].
  destruct (Nat.eqb k' k); [apply coord_vscale|apply IH].
Qed.
