(** C38 and C39 for the generalised Gauss-Newton matrix of one loss. *)
From Coq Require Import List Arith Bool Reals Lra Lia.
From Verif.Base Require Import Py.
From Verif.Curv Require Import Model Spec Props.
Import ListNotations.
Open Scope list_scope.
Open Scope R_scope.

(** Losses with a GGN: all but the normal distribution with a variance that is learnt. *)
Definition has_ggn (l : loss) : Prop := forall n m v, l <> NormalMeanVariance n m v.

Lemma has_ggn_natural l : has_ggn l -> natural l = true.
Proof. intro H. destruct l; try reflexivity. exfalso. now eapply H. Qed.

(** The products with the factor and its transpose compose to the product with the GGN and are
    adjoint; the GGN is symmetric and positive semi-definite. *)
Theorem C38_ggn_factors : forall l u v, has_ggn l -> wf_loss l -> inner_like l u -> input_like l v ->
  (exists x w, multiply_ggn_factor_transpose l v = Ok x /\ multiply_ggn_factor l x = Ok w /\
     multiply_ggn l v = Ok w /\ input_like l w /\ 0 <= ldot v w) /\
  (exists w x, multiply_ggn_factor l u = Ok w /\ multiply_ggn_factor_transpose l v = Ok x /\ ldot w v = ldot u x) /\
  (forall y gy gv, input_like l y -> multiply_ggn l y = Ok gy -> multiply_ggn l v = Ok gv -> ldot gy v = ldot y gv).
Proof.
  intros l u v H W U V. apply has_ggn_natural in H.
  unfold multiply_ggn, multiply_ggn_factor, multiply_ggn_factor_transpose. rewrite H. split; [|split].
  - destruct (C38_factors_square_to_fisher l v W V) as (x & w & A & _ & B & C & D). exists x, w.
    repeat (split; [assumption|]). now apply (C38_fisher_symmetric_psd l v v w w).
  - destruct (C38_factor_adjoint l u v W U V) as (w & x & A & B & _ & D). now exists w, x.
  - intros y gy gv Y A B. now apply (C38_fisher_symmetric_psd l y v gy gv).
Qed.
Print Assumptions C38_ggn_factors.

(** The product with a replicated one-hot vector is that column of the factor of the GGN. *)
Theorem C39_ggn_one_hot_is_factor_column : forall l i, has_ggn l -> wf_loss l -> (i < inner_width l)%nat ->
  exists w, multiply_ggn_factor_replicated_one_hot l [i] = Ok w /\
    multiply_ggn_factor l (V1 (replicated_one_hot (batch l) (inner_width l) i)) = Ok w /\ input_like l w.
Proof.
  intros l i H W I. apply has_ggn_natural in H. unfold multiply_ggn_factor_replicated_one_hot, multiply_ggn_factor. rewrite H.
  exact (C39_one_hot_is_factor_column l i W I).
Qed.
Print Assumptions C39_ggn_one_hot_is_factor_column.

Example C38_ggn_example :
  let l := Categorical 3 [[1; 2; 3]] in
  has_ggn l /\ wf_loss l /\ inner_like l (V1 [[1; 0; 2]]) /\ input_like l (V1 [[1; 2; 3]]) /\ (2 < inner_width l)%nat.
Proof. split; [intros ? ? ?; discriminate|]. simpl. unfold shaped. simpl. repeat first [simpl; lra | split | constructor]. Qed.
