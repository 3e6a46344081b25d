(** Property theorems C36 - C40, C56, C57. *)
From Coq Require Import List Arith Bool Reals Lra Lia Permutation.
From Verif.Base Require Import Py.
From Verif.Curv Require Import Model Spec BlockProofs VecProofs LossProofs GradProofs CompProofs EstProofs NormalProofs.
Import ListNotations.
Open Scope list_scope.
Open Scope R_scope.

(* ======================================================================= *)
(** ** C36 *)

(** The output has one entry per input, in the order of the caller and paired with the
    same variables; each is what the variable's own block returns for the vectors of that
    block's variables. *)
Theorem C36_blockwise_in_callers_order :
  forall (V E : Type) (minus_one one : E) (o : operation E) (blocks : list (bkey * fblock V E))
         (l : list (V * nat)) out,
    NoDup (all_vars blocks) -> NoDup (map snd l) ->
    call minus_one one o blocks l = Ok out ->
    map snd out = map snd l /\
    forall y v, In (y, v) out ->
      exists b, In b blocks /\ In v (vars (fst b)) /\ block_result (of_block minus_one one o) l b v y.
Proof.
  intros V E m1 one o blocks l out Hd Hl H.
  assert (H' : compute_transformation blocks l (of_block m1 one o) = Ok out) by (destruct o; exact H).
  split; [exact (ct_vars _ _ _ Hd out H')|].
  intros y v Hy. exact (ct_result _ _ _ Hd Hl out y v H' Hy).
Qed.
Print Assumptions C36_blockwise_in_callers_order.

(** What a block returns for a variable is determined by the vectors of the block's own
    variables: two input lists that agree there give the same output. *)
Theorem C36_result_depends_on_own_block_only :
  forall (V E : Type) (minus_one one : E) (o : operation E) (blocks : list (bkey * fblock V E))
         (l l' : list (V * nat)) out out' b v y y',
    NoDup (all_vars blocks) -> NoDup (map snd l) -> NoDup (map snd l') ->
    call minus_one one o blocks l = Ok out -> call minus_one one o blocks l' = Ok out' ->
    In b blocks -> In v (vars (fst b)) ->
    (forall x w, In w (vars (fst b)) -> In (x, w) l -> In (x, w) l') ->
    In (y, v) out -> In (y', v) out' -> y = y'.
Proof.
  intros V E m1 one o blocks l l' out out' b v y y' Hd Hl Hl' H H' Hb Hv Hag Hy Hy'.
  assert (K : compute_transformation blocks l (of_block m1 one o) = Ok out) by (destruct o; exact H).
  assert (K' : compute_transformation blocks l' (of_block m1 one o) = Ok out') by (destruct o; exact H').
  exact (ct_local _ _ _ _ _ _ _ _ _ _ Hd Hl Hl' K K' Hb Hv Hag Hy Hy').
Qed.
Print Assumptions C36_result_depends_on_own_block_only.

(** Permuting the inputs permutes the outputs. *)
Theorem C36_permutation :
  forall (V E : Type) (minus_one one : E) (o : operation E) (blocks : list (bkey * fblock V E))
         (l l' : list (V * nat)) out,
    NoDup (all_vars blocks) -> NoDup (map snd l) -> Permutation l l' ->
    call minus_one one o blocks l = Ok out ->
    exists out', call minus_one one o blocks l' = Ok out' /\
                 Permutation out out' /\ map snd out' = map snd l'.
Proof.
  intros V E m1 one o blocks l l' out Hd Hl P H.
  assert (K : compute_transformation blocks l (of_block m1 one o) = Ok out) by (destruct o; exact H).
  destruct (ct_perm _ _ _ _ _ Hd Hl P K) as [out' [K' HH]].
  exists out'. split; [destruct o; exact K'|exact HH].
Qed.
Print Assumptions C36_permutation.

(** A variable missing from the input, or one that no block has, is an error. *)
Theorem C36_missing_or_unknown_variable_raises :
  forall (V E : Type) (minus_one one : E) (o : operation E) (blocks : list (bkey * fblock V E))
         (l : list (V * nat)) v,
    NoDup (all_vars blocks) -> NoDup (map snd l) ->
    (In v (all_vars blocks) /\ ~ In v (map snd l)) \/ (In v (map snd l) /\ ~ In v (all_vars blocks)) ->
    exists e, call minus_one one o blocks l = Raise e.
Proof.
  intros V E m1 one o blocks l v Hd Hl H.
  assert (K : exists e, compute_transformation blocks l (of_block m1 one o) = Raise e)
    by exact (ct_wrong_vars _ _ _ v Hd Hl H).
  destruct K as [e K]. exists e. destruct o; exact K.
Qed.
Print Assumptions C36_missing_or_unknown_variable_raises.

(** Otherwise, if the blocks behave, the call succeeds. *)
Theorem C36_complete_input_succeeds :
  forall (V E : Type) (minus_one one : E) (o : operation E) (blocks : list (bkey * fblock V E))
         (l : list (V * nat)),
    NoDup (all_vars blocks) -> NoDup (map snd l) ->
    Forall (well_behaved (of_block minus_one one o)) blocks ->
    (forall v, In v (all_vars blocks) <-> In v (map snd l)) ->
    exists out, call minus_one one o blocks l = Ok out.
Proof.
  intros V E m1 one o blocks l Hd Hl Hw Hc.
  destruct (ct_total _ _ _ Hd Hl Hw Hc) as [out K]. exists out. destruct o; exact K.
Qed.
Print Assumptions C36_complete_input_succeeds.

Definition times (k : nat) : fblock nat nat :=
  mkFB nat nat
    (fun x e => Ok (match x with One a => One (k * a + e)%nat | Many xs => Many (map (fun a => k * a + e)%nat (rev xs)) end))
    (fun x t => Ok x) (fun x t => Ok x).
Example C36_example :
  let blocks := [(KTup [0; 1], times 2); (KVar 2, times 3)]%nat in
  let l := [(10, 2); (20, 1); (30, 0)]%nat in
  NoDup (all_vars blocks) /\ NoDup (map snd l) /\
  Forall (well_behaved (of_block 0%nat 1%nat OpMultiply)) blocks /\
  (forall v, In v (all_vars blocks) <-> In v (map snd l)) /\
  call 0%nat 1%nat OpMultiply blocks l = Ok [(One 31, 2); (One 61, 1); (One 41, 0)]%nat.
Proof.
  assert (W : forall k, forall xs : list nat, exists ys,
    fb_matpower (times k) (Many xs) 1%nat = Ok (Many ys) /\ length ys = length xs).
  { intros k xs. eexists; split; [reflexivity|]. rewrite map_length, rev_length; auto. }
  simpl. repeat split; try (repeat constructor; simpl; intuition; discriminate); try (simpl; intuition).
  repeat constructor; unfold well_behaved; simpl.
  - intros xs Hx. destruct (W 2%nat xs) as [ys [E L]]. exists ys. split; [exact E|congruence].
  - intros x. eexists. reflexivity.
Qed.

(* ======================================================================= *)
(** ** C37 *)

(** The product with the Fisher or the GGN is the product with the factor of the product
    with the transposed factor. *)
Theorem C37_factorisation_partial :
  forall k c v, wf_computer c -> wrt_like (c_wrt c) v ->
    exists a u, multiply_curv k c v = Ok a /\ wrt_like (c_wrt c) a /\
      multiply_curv_factor_transpose k c v = Ok u /\ multiply_curv_factor k c u = Ok a.
Proof. exact (fun k c v W _ => products_factorise k c v W). Qed.
Print Assumptions C37_factorisation_partial.

(** The factor and its transpose are adjoint. *)
Theorem C37_factor_adjoint_partial :
  forall k c us v, wf_computer c -> wrt_like (c_wrt c) v ->
    Forall2 (fun lc u => like (fst lc) u) (c_losses c) us ->
    exists x w, multiply_curv_factor k c (map V1 us) = Ok x /\
      multiply_curv_factor_transpose k c v = Ok w /\ tdot x v = ldots (map V1 us) w.
Proof. exact (fun k c us v W _ H => factors_adjoint k c us v W H). Qed.
Print Assumptions C37_factor_adjoint_partial.

(** The operator is linear, symmetric and positive semidefinite. *)
Theorem C37_linear_partial :
  forall k c s u v x y, wf_computer c -> wrt_like (c_wrt c) u -> wrt_like (c_wrt c) v ->
    multiply_curv k c u = Ok x -> multiply_curv k c v = Ok y ->
    multiply_curv k c (tadd (tscale s u) v) = Ok (tadd (tscale s x) y).
Proof. exact products_linear. Qed.
Print Assumptions C37_linear_partial.

Theorem C37_symmetric_psd_partial :
  forall k c u v x y, wf_computer c -> wrt_like (c_wrt c) u -> wrt_like (c_wrt c) v ->
    multiply_curv k c u = Ok x -> multiply_curv k c v = Ok y ->
    tdot x v = tdot u y /\ 0 <= tdot v y.
Proof.
  exact (fun k c u v x y W _ _ H1 H2 =>
    conj (products_symmetric k c u v x y W H1 H2) (products_psd k c v y W H2)).
Qed.
Print Assumptions C37_symmetric_psd_partial.

(** The product is the sum over the losses of coefficient times the product for that loss
    alone. *)
Theorem C37_coefficients_scale_contributions_partial :
  forall k c v, wf_computer c -> wrt_like (c_wrt c) v ->
    exists parts,
      Forall2 (fun p x => let '((l, coeff), j) := p in
                 fst x = coeff /\ multiply_curv k (only c l j) v = Ok (snd x))
              (zip (c_losses c) (c_jac c)) parts /\
      multiply_curv k c v = Ok (combine_losses (c_wrt c) parts).
Proof. exact (fun k c v W _ => curv_decompose k c v W). Qed.
Print Assumptions C37_coefficients_scale_contributions_partial.

(** It is J^T F J: its bilinear form is that of each loss at the directional derivatives
    of the loss inputs. *)
Theorem C37_is_pullback_of_loss_curvature_partial :
  forall k c u v a, wf_computer c -> multiply_curv k c v = Ok a ->
    exists ws,
      Forall2 (fun p w => multiply_fisher (fst (fst p)) (V1 (push (snd p) v)) = Ok (V1 w))
              (zip (c_losses c) (c_jac c)) ws /\
      tdot u a = rsum (map2 (fun p w => snd (fst p) * tdot (push (snd p) u) w)
                            (zip (c_losses c) (c_jac c)) ws).
Proof. exact products_form. Qed.
Print Assumptions C37_is_pullback_of_loss_curvature_partial.

(** The product with the transposed factor works for every loss, also the one with two
    inputs: each loss sees the directional derivatives of its own inputs, in the order in
    which it declares them, and its part is scaled by the square root of its coefficient. *)
Theorem C37_factor_transpose_all_losses_partial :
  forall c jacs v xs,
    c_jac c = concat jacs -> length jacs = length (c_losses c) ->
    Forall2 (fun p x => own_inputs (fst (fst p)) (snd p) v x) (zip (c_losses c) jacs) xs ->
    exists us, multiply_curv_factor_transpose Fisher c v = Ok us /\
      Forall2 (fun p u => let '((l, coeff), x) := p in
         exists w, multiply_fisher_factor_transpose l x = Ok (V1 w) /\ u = V1 (tscale (sqrt coeff) w))
        (zip (c_losses c) xs) us.
Proof. exact factor_transpose_all_losses. Qed.
Print Assumptions C37_factor_transpose_all_losses_partial.

Example C37_factor_transpose_example :
  let j1 := [[ [[1; 0]; [2]] ]] in let j2 := [[ [[0; 1]; [1]] ]] in let j3 := [[ [[1; 1]; [0]] ]] in
  let c := mkComp [(NormalMeanVariance 1 [[1]] [[2]], 3); (Categorical 1 [[4]], 5)] [2; 1]%nat [j1; j2; j3] in
  let v := [[1; 2]; [3]] in
  c_jac c = concat [[j1; j2]; [j3]] /\
  Forall2 (fun p x => own_inputs (fst (fst p)) (snd p) v x) (zip (c_losses c) [[j1; j2]; [j3]])
    [V2 (push j1 v) (push j2 v); V1 (push j3 v)].
Proof.
  split; [reflexivity|]. constructor; [|constructor; [|constructor]]; unfold own_inputs; simpl.
  - do 2 eexists. split; reflexivity.
  - eexists. split; reflexivity.
Qed.

(** The full statement fails for the loss with two inputs: although its own Fisher
    products are fine (C38), the product computer cannot multiply by its Fisher. *)
Theorem C37_two_input_loss_refuted :
  forall n mean variance coeff wrt j1 j2 v us,
    let c := mkComp [(NormalMeanVariance n mean variance, coeff)] wrt [j1; j2] in
    multiply_curv Fisher c v = Raise AttributeError /\
    multiply_curv_factor Fisher c [V1 us] = Raise AttributeError /\
    (exists w, multiply_curv_factor_transpose Fisher c v = Ok w) /\
    multiply_curv GGN c v = Raise NotImplementedErr.
Proof. exact two_input_raises. Qed.
Print Assumptions C37_two_input_loss_refuted.

(** Two losses, one with two rows of two logits, one with a row of three means, and two
    variables of sizes 2 and 1. *)
Definition two_losses : computer :=
  mkComp [(Categorical 2 [[1; 0]; [2; 5]], 3); (NormalMean 3 [[1; 2; 3]] 4, / 2)]
         [2; 1]%nat
         [ [ [ [[1; 0]; [2]]; [[0; 1]; [1]] ]; [ [[1; 1]; [0]]; [[3; 0]; [1]] ] ];
           [ [ [[1; 0]; [0]]; [[0; 2]; [0]]; [[0; 0]; [1]] ] ] ].
Example C37_example : wf_computer two_losses /\ wrt_like (c_wrt two_losses) [[1; 2]; [3]] /\
  Forall2 (fun lc u => like (fst lc) u) (c_losses two_losses) [[[1; 2]; [3; 4]]; [[1; 2; 3]]].
Proof.
  unfold two_losses, wf_computer, jac_like, wrt_like, like, shaped, one_input. simpl.
  repeat first [simpl; lra | split | constructor].
Qed.

(* ======================================================================= *)
(** ** C38 *)

Theorem C38_factors_square_to_fisher :
  forall l v, wf_loss l -> input_like l v ->
    exists u w, multiply_fisher_factor_transpose l v = Ok u /\ inner_like l u /\
      multiply_fisher_factor l u = Ok w /\ multiply_fisher l v = Ok w /\ input_like l w.
Proof. exact fisher_factorises. Qed.
Print Assumptions C38_factors_square_to_fisher.

Theorem C38_factor_adjoint :
  forall l u v, wf_loss l -> inner_like l u -> input_like l v ->
    exists w x, multiply_fisher_factor l u = Ok w /\ multiply_fisher_factor_transpose l v = Ok x /\
      input_like l w /\ ldot w v = ldot u x.
Proof. exact factor_adjoint. Qed.
Print Assumptions C38_factor_adjoint.

Theorem C38_fisher_symmetric_psd :
  forall l u v fu fv, wf_loss l -> input_like l u -> input_like l v ->
    multiply_fisher l u = Ok fu -> multiply_fisher l v = Ok fv ->
    ldot fu v = ldot u fv /\ 0 <= ldot v fv.
Proof.
  intros l u v fu fv W Hu Hv E1 E2.
  destruct (fisher_gram l u v W Hu Hv) as (? & ? & bu & bv & F1 & F2 & _ & _ & G1 & G2).
  destruct (fisher_gram l v v W Hv Hv) as (? & ? & b1 & b2 & F3 & F4 & F5 & F6 & G3 & G4).
  rewrite E1 in F1. rewrite E2 in F2, F3. injection F1 as <-. injection F2 as <-. injection F3 as <-.
  rewrite E2 in F4. injection F4 as <-. rewrite F5 in F6. injection F6 as <-.
  split; [congruence|]. rewrite G4. apply ldot_nonneg.
Qed.
Print Assumptions C38_fisher_symmetric_psd.

(** And it is the matrix the documentation of each loss gives. *)
Theorem C38_fisher_is_documented_matrix :
  forall l v w r i, wf_loss l -> input_like l v -> multiply_fisher l v = Ok w ->
    (r < batch l)%nat -> (i < inner_width l)%nat ->
    nth i (row_of w r) 0 =
    sum_n (inner_width l) (fun j => documented_fisher l r i j * nth j (row_of v r) 0).
Proof. exact documented_fisher_ok. Qed.
Print Assumptions C38_fisher_is_documented_matrix.

Example C38_example :
  let l := NormalMeanVariance 2 [[1; 2]; [3; 4]] [[1; 2]; [3; 4]] in
  wf_loss l /\ input_like l (V2 [[1; 2]; [3; 4]] [[5; 6]; [7; 8]]) /\
  inner_like l (V1 [[1; 2; 3; 4]; [5; 6; 7; 8]]) /\
  wf_loss (Categorical 3 [[1; 2; 3]]) /\ wf_loss (MultiBernoulli 1 [[1]; [2]]) /\ wf_loss (NormalMean 1 [[1]] 2).
Proof. simpl. unfold shaped. simpl. repeat first [simpl; lra | split | constructor]. Qed.

(* ======================================================================= *)
(** ** C39 *)

Theorem C39_one_hot_is_factor_column :
  forall l i, wf_loss l -> (i < inner_width l)%nat ->
    exists w, multiply_fisher_factor_replicated_one_hot l [i] = Ok w /\
      multiply_fisher_factor l (V1 (replicated_one_hot (batch l) (inner_width l) i)) = Ok w /\ input_like l w.
Proof. exact one_hot_column_exists. Qed.
Print Assumptions C39_one_hot_is_factor_column.

Theorem C39_index_out_of_range_raises :
  forall l i, (inner_width l <= i)%nat ->
    exists e, multiply_fisher_factor_replicated_one_hot l [i] = Raise e.
Proof. exact one_hot_out_of_range. Qed.
Print Assumptions C39_index_out_of_range_raises.

(** An index with another number of positions is an error. *)
Theorem C39_index_of_other_length_raises :
  forall l index, length index <> 1%nat ->
    multiply_fisher_factor_replicated_one_hot l index = Raise AssertionError.
Proof. exact one_hot_index_length. Qed.
Print Assumptions C39_index_of_other_length_raises.

(** Summing over all the columns that the exact estimation mode computes reproduces the
    Fisher of a row (the form of the Fisher on vectors that only meet one row of the
    batch). *)
Theorem C39_exact_columns_sum_to_fisher :
  forall c r u v, wf_computer c -> meets_row c r u -> meets_row c r v ->
    exists gs a, grads_exact Fisher (c_wrt c) (per_loss c) = Ok gs /\
      length gs = list_sum (map (fun lc => inner_width (fst lc)) (c_losses c)) /\
      multiply_curv Fisher c v = Ok a /\
      rsum (map (fun g => tdot g u * tdot g v) gs) = tdot u a.
Proof. exact exact_is_fisher. Qed.
Print Assumptions C39_exact_columns_sum_to_fisher.

(** Two rows; variable 0 only reaches row 0 and variable 1 only row 1. *)
Definition two_rows : computer :=
  mkComp [(Categorical 2 [[1; 0]; [2; 5]], 3)] [2; 2]%nat
         [ [ [ [[1; 0]; [0; 0]]; [[0; 1]; [0; 0]] ]; [ [[0; 0]; [2; 1]]; [[0; 0]; [0; 1]] ] ] ].
Example C39_example : wf_computer two_rows /\ meets_row two_rows 1 [[0; 0]; [7; 8]].
Proof.
  split.
  - unfold two_rows, wf_computer, jac_like, wrt_like, like, shaped, one_input. simpl.
    repeat first [simpl; lra | split | constructor].
  - intros j r' g Hj Hr Hg. simpl in Hj. destruct Hj as [<-|[]].
    destruct r' as [|[|r']]; [|lia|destruct r'; contradiction].
    simpl in Hg. destruct Hg as [<-|[<-|[]]]; unfold tdot, map2, dot; simpl; unfold map2; simpl; ring.
Qed.

(* ======================================================================= *)
(** ** C40 *)

(** For targets drawn from the model's own distribution the expected gradient of the loss
    is zero, and the expectation of its outer product with itself is the Fisher that
    multiply_fisher applies. *)
Theorem C40_categorical :
  forall n z v, (0 < n)%nat -> wf_loss (Categorical n z) -> input_like (Categorical n z) (V1 v) ->
    exists g w,
      (forall t, length t = length z -> is_gradient (fun z => evaluate_categorical z t) z (g t)) /\
      multiply_fisher (Categorical n z) (V1 v) = Ok (V1 w) /\
      forall r c, (r < length z)%nat -> (c < n)%nat ->
        categorical_targets z (fun t => entry (g t) r c) = 0 /\
        categorical_targets z (fun t => entry (g t) r c * tdot (g t) v) = entry w r c.
Proof. exact categorical_scores. Qed.
Print Assumptions C40_categorical.

Theorem C40_multi_bernoulli :
  forall n z v, wf_loss (MultiBernoulli n z) -> input_like (MultiBernoulli n z) (V1 v) ->
    exists g w,
      (forall t, Forall2 (fun (r : row) (ks : list nat) => length ks = length r) z t ->
         is_gradient (fun z => evaluate_multi_bernoulli z t) z (g t)) /\
      multiply_fisher (MultiBernoulli n z) (V1 v) = Ok (V1 w) /\
      forall r c, (r < length z)%nat -> (c < n)%nat ->
        bernoulli_targets z (fun t => entry (g t) r c) = 0 /\
        bernoulli_targets z (fun t => entry (g t) r c * tdot (g t) v) = entry w r c.
Proof. exact bernoulli_scores. Qed.
Print Assumptions C40_multi_bernoulli.

(** The same for normal targets with a fixed variance; the expectations are integrals
    against the Gaussian density. *)
Theorem C40_normal_mean :
  forall n m var v, wf_loss (NormalMean n m var) -> input_like (NormalMean n m var) (V1 v) ->
    exists g w,
      (forall t, shaped (length m) n t -> is_gradient (fun m => evaluate_normal_mean m var t) m (g t)) /\
      multiply_fisher (NormalMean n m var) (V1 v) = Ok (V1 w) /\
      forall r c, (r < length m)%nat -> (c < n)%nat ->
        normal_targets m (constant_like var m) (fun t => entry (g t) r c) = 0 /\
        normal_targets m (constant_like var m) (fun t => entry (g t) r c * tdot (g t) v) = entry w r c.
Proof. exact normal_mean_scores. Qed.
Print Assumptions C40_normal_mean.

(** And for the loss in the mean and the variance, with a gradient with respect to each. *)
Theorem C40_normal_mean_variance :
  forall n m s v1 v2,
    wf_loss (NormalMeanVariance n m s) -> input_like (NormalMeanVariance n m s) (V2 v1 v2) ->
    exists g1 g2 w1 w2,
      (forall t, shaped (length m) n t ->
         is_gradient (fun m => evaluate_normal_mean_variance m s t) m (g1 t) /\
         is_gradient (fun s => evaluate_normal_mean_variance m s t) s (g2 t)) /\
      multiply_fisher (NormalMeanVariance n m s) (V2 v1 v2) = Ok (V2 w1 w2) /\
      forall r c, (r < length m)%nat -> (c < n)%nat ->
        normal_targets m s (fun t => entry (g1 t) r c) = 0 /\
        normal_targets m s (fun t => entry (g2 t) r c) = 0 /\
        normal_targets m s (fun t => entry (g1 t) r c * ldot (V2 (g1 t) (g2 t)) (V2 v1 v2)) = entry w1 r c /\
        normal_targets m s (fun t => entry (g2 t) r c * ldot (V2 (g1 t) (g2 t)) (V2 v1 v2)) = entry w2 r c.
Proof. exact normal_mean_variance_scores. Qed.
Print Assumptions C40_normal_mean_variance.

(** The distributions of the targets are those whose negative log-probability the losses
    evaluate. *)
Theorem C40_targets_follow_the_loss :
  (forall r k, (k < length r)%nat -> exp (- evaluate_categorical [r] [k]) = nth k (softmax r) 0) /\
  (forall x, exp (- evaluate_multi_bernoulli [[x]] [[1%nat]]) = sigmoid x /\
             exp (- evaluate_multi_bernoulli [[x]] [[0%nat]]) = 1 - sigmoid x).
Proof. exact (conj categorical_prob bernoulli_prob). Qed.
Print Assumptions C40_targets_follow_the_loss.

(** Likewise the density of the normal targets, which integrates to one and has the mean
    and the variance of the loss. *)
Theorem C40_normal_targets_follow_the_loss :
  forall m var, 0 < var ->
    (forall t, exp (- evaluate_normal_mean [[m]] var [[t]]) = normal_density m var t /\
               exp (- evaluate_normal_mean_variance [[m]] [[var]] [[t]]) = normal_density m var t) /\
    gaussian m var (fun _ => 1) = 1 /\ gaussian m var (fun t => t) = m /\
    gaussian m var (fun t => (t - m) ^ 2) = var.
Proof. exact normal_prob. Qed.
Print Assumptions C40_normal_targets_follow_the_loss.

Example C40_example :
  wf_loss (Categorical 3 [[1; 2; 3]; [0; 0; 1]]) /\
  input_like (Categorical 3 [[1; 2; 3]; [0; 0; 1]]) (V1 [[1; 1; 0]; [2; 0; 1]]) /\
  wf_loss (MultiBernoulli 2 [[1; 2]]) /\ input_like (MultiBernoulli 2 [[1; 2]]) (V1 [[4; 5]]) /\
  wf_loss (NormalMean 2 [[1; 2]] 3) /\ input_like (NormalMean 2 [[1; 2]] 3) (V1 [[4; 5]]) /\
  wf_loss (NormalMeanVariance 2 [[1; 2]] [[3; 4]]) /\
  input_like (NormalMeanVariance 2 [[1; 2]] [[3; 4]]) (V2 [[4; 5]] [[6; 7]]).
Proof. simpl. unfold shaped. simpl. repeat first [simpl; lra | split | constructor]. Qed.

(* ======================================================================= *)
(** ** C56 *)

(** The GGN product of a loss in its natural parameters is the derivative, in that
    direction, of the gradient of the loss: the Hessian-vector product, whatever the
    targets. *)
Theorem C56_categorical_ggn_is_hessian :
  forall n z v t, wf_loss (Categorical n z) -> input_like (Categorical n z) (V1 v) ->
    length t = length z ->
    exists g w,
      (forall z', shaped (length z) n z' -> is_gradient (fun z => evaluate_categorical z t) z' (g z')) /\
      multiply_ggn (Categorical n z) (V1 v) = Ok (V1 w) /\ is_directional g z v w.
Proof. exact categorical_ggn. Qed.
Print Assumptions C56_categorical_ggn_is_hessian.

Theorem C56_multi_bernoulli_ggn_is_hessian :
  forall n z v t, wf_loss (MultiBernoulli n z) -> input_like (MultiBernoulli n z) (V1 v) ->
    length t = length z -> Forall (fun ks : list nat => length ks = n) t ->
    exists g w,
      (forall z', shaped (length z) n z' -> is_gradient (fun z => evaluate_multi_bernoulli z t) z' (g z')) /\
      multiply_ggn (MultiBernoulli n z) (V1 v) = Ok (V1 w) /\ is_directional g z v w.
Proof. exact bernoulli_ggn. Qed.
Print Assumptions C56_multi_bernoulli_ggn_is_hessian.

Theorem C56_normal_mean_ggn_is_hessian :
  forall n m var v t, wf_loss (NormalMean n m var) -> input_like (NormalMean n m var) (V1 v) ->
    shaped (length m) n t ->
    exists g w,
      (forall m', shaped (length m) n m' -> is_gradient (fun m => evaluate_normal_mean m var t) m' (g m')) /\
      multiply_ggn (NormalMean n m var) (V1 v) = Ok (V1 w) /\ is_directional g m v w.
Proof. exact normal_mean_ggn. Qed.
Print Assumptions C56_normal_mean_ggn_is_hessian.

Example C56_example :
  wf_loss (NormalMean 2 [[1; 2]; [3; 4]] 5) /\ input_like (NormalMean 2 [[1; 2]; [3; 4]] 5) (V1 [[1; 0]; [0; 1]]) /\
  shaped 2 2 [[0; 0]; [1; 1]] /\ wf_loss (Categorical 3 [[1; 2; 3]]) /\ length [2%nat] = length [[1; 2; 3]].
Proof. simpl. unfold shaped. simpl. repeat first [simpl; lra | split | constructor]. Qed.

(* ======================================================================= *)
(** ** C57 *)

(** Mode "gradients": for targets sampled from the model, independently for every loss,
    the gradients have mean zero and their second moment is the Fisher. *)
Theorem C57_gradients_mode_unbiased_partial :
  forall c ds, wf_computer c ->
    Forall2 (fun lc d => sampled_gradient (fst lc) d) (c_losses c) ds ->
    exists G,
      (forall ss, Forall2 (fun lc s => like (fst lc) s) (c_losses c) ss ->
         grads_gradients c (map V1 ss) = Ok (G ss)) /\
      forall u v, wrt_like (c_wrt c) u -> wrt_like (c_wrt c) v ->
        exists a, multiply_curv Fisher c v = Ok a /\
          independent ds (fun ss => tdot (G ss) u) = 0 /\
          independent ds (fun ss => tdot (G ss) u * tdot (G ss) v) = tdot u a.
Proof. exact gradients_unbiased. Qed.
Print Assumptions C57_gradients_mode_unbiased_partial.

(** The same for every loss, also the one with two inputs.  The product computer cannot
    multiply by the Fisher of that loss (C37), so the curvature is written out: the sum
    over the losses of coefficient times the loss's own Fisher product between the
    directional derivatives of the loss's inputs. *)
Theorem C57_gradients_mode_all_losses_partial :
  forall c jacs ds,
    Forall (fun lc => wf_loss (fst lc) /\ 0 <= snd lc) (c_losses c) ->
    c_jac c = concat jacs ->
    Forall2 (fun lc js => own_jacobians (c_wrt c) (fst lc) js) (c_losses c) jacs ->
    Forall2 (fun lc d => sampled_gradients (fst lc) d) (c_losses c) ds ->
    exists G,
      (forall gs, Forall2 (fun lc g => input_like (fst lc) g) (c_losses c) gs ->
         grads_gradients c gs = Ok (G gs)) /\
      forall u v xs ys,
        Forall2 (fun p x => own_inputs (fst (fst p)) (snd p) u x) (zip (c_losses c) jacs) xs ->
        Forall2 (fun p y => own_inputs (fst (fst p)) (snd p) v y) (zip (c_losses c) jacs) ys ->
        exists ws,
          Forall2 (fun p w => multiply_fisher (fst (fst p)) (snd p) = Ok w) (zip (c_losses c) ys) ws /\
          independent ds (fun gs => tdot (G gs) u) = 0 /\
          independent ds (fun gs => tdot (G gs) u * tdot (G gs) v)
          = rsum (map2 (fun p w => snd (fst p) * ldot (snd p) w) (zip (c_losses c) xs) ws).
Proof. exact gradients_unbiased_all. Qed.
Print Assumptions C57_gradients_mode_all_losses_partial.

Example C57_all_losses_example :
  let j1 := [[ [[1; 0]; [2]] ]] in let j2 := [[ [[0; 1]; [1]] ]] in let j3 := [[ [[1; 1]; [0]] ]] in
  let ls := [(NormalMeanVariance 1 [[1]] [[2]], 3); (NormalMean 1 [[4]] 7, 5)] in
  let v := [[1; 2]; [3]] in
  Forall (fun lc => wf_loss (fst lc) /\ 0 <= snd lc) ls /\
  Forall2 (fun lc js => own_jacobians [2; 1]%nat (fst lc) js) ls [[j1; j2]; [j3]] /\
  Forall2 (fun p x => own_inputs (fst (fst p)) (snd p) v x) (zip ls [[j1; j2]; [j3]])
    [V2 (push j1 v) (push j2 v); V1 (push j3 v)] /\
  exists ds, Forall2 (fun lc d => sampled_gradients (fst lc) d) ls ds.
Proof.
  cbv zeta. split; [|split; [|split]].
  - unfold shaped. repeat first [simpl; lra | split | constructor].
  - unfold own_jacobians, wrt_like. repeat first [split | constructor].
  - constructor; [|constructor; [|constructor]]; unfold own_inputs; simpl; repeat eexists.
  - assert (Hm : shaped 1 1 [[1]]) by (split; simpl; auto). assert (Hs : shaped 1 1 [[2]]) by (split; simpl; auto).
    assert (Hk : shaped 1 1 [[4]]) by (split; simpl; auto).
    eexists. constructor; [|constructor; [|constructor]]; simpl fst.
    + apply (sgs_normal_mean_variance 1 [[1]] [[2]] (MomentProofs.mean_grad [[1]] [[2]]) (MomentProofs.var_grad [[1]] [[2]])).
      intros t Ht. simpl length in *.
      assert (P : Forall (Forall (fun x => 0 < x)) [[2]]) by (constructor; [constructor; [lra|constructor]|constructor]).
      split; [split|split]; [now apply (mean_gradient 1 1)|now apply (var_gradient 1 1)|now apply mean_grad_shaped|now apply var_grad_shaped].
    + apply sgs_one_input. apply (sg_normal_mean 1 [[4]] 7 (normal_grad 7 [[4]])). intros t Ht. simpl length in *. split.
      * apply normal_gradient; [lra|apply Ht|now apply (MomentProofs.paired_rows 1 1)].
      * now apply MomentProofs.normal_grad_shaped.
Qed.

(** Mode "curvature_prop": the same for random signs, for the Fisher and the GGN. *)
Theorem C57_curvature_prop_mode_unbiased_partial :
  forall k c, wf_computer c ->
    exists G,
      (forall ss, Forall2 (fun lc s => like (fst lc) s) (c_losses c) ss ->
         grads_curvature_prop k c (map V1 ss) = Ok (G ss)) /\
      forall u v, wrt_like (c_wrt c) u -> wrt_like (c_wrt c) v ->
        exists a, multiply_curv k c v = Ok a /\
          random_signs c (fun ss => tdot (G ss) u) = 0 /\
          random_signs c (fun ss => tdot (G ss) u * tdot (G ss) v) = tdot u a.
Proof. exact curvature_prop_unbiased. Qed.
Print Assumptions C57_curvature_prop_mode_unbiased_partial.

(** Mode "exact" needs no expectation. *)
Theorem C57_exact_mode_partial :
  forall c r u v, wf_computer c -> meets_row c r u -> meets_row c r v ->
    exists gs a, grads_exact Fisher (c_wrt c) (per_loss c) = Ok gs /\
      multiply_curv Fisher c v = Ok a /\
      rsum (map (fun g => tdot g u * tdot g v) gs) = tdot u a.
Proof.
  intros c r u v W Mu Mv. destruct (exact_is_fisher c r u v W Mu Mv) as (gs & a & H1 & _ & H2 & H3).
  exists gs, a. auto.
Qed.
Print Assumptions C57_exact_mode_partial.

(** But the exact mode never works for the GGN, and neither it nor "curvature_prop" works
    for the loss with two inputs. *)
Theorem C57_modes_refuted :
  (forall wrt p ls, grads_exact GGN wrt (p :: ls) = Raise AttributeError) /\
  (forall n mean variance coeff wrt j1 j2 us,
     grads_curvature_prop Fisher (mkComp [(NormalMeanVariance n mean variance, coeff)] wrt [j1; j2]) [V1 us]
     = Raise AttributeError) /\
  (forall n mean variance coeff wrt jac, (0 < n)%nat ->
     grads_exact Fisher wrt [((NormalMeanVariance n mean variance, coeff), jac)] = Raise AttributeError).
Proof. exact modes_raise. Qed.
Print Assumptions C57_modes_refuted.

Example C57_example :
  let c := mkComp [(Categorical 2 [[1; 0]; [2; 5]], 3); (MultiBernoulli 1 [[1]], / 2);
                    (NormalMean 2 [[1; 2]] 3, 1)] [1]%nat
             [ [ [ [[1]]; [[0]] ]; [ [[1]]; [[3]] ] ]; [ [ [[1]] ] ]; [ [ [[2]]; [[5]] ] ] ] in
  wf_computer c /\
  exists ds, Forall2 (fun lc d => sampled_gradient (fst lc) d) (c_losses c) ds.
Proof.
  split.
  - unfold wf_computer, jac_like, wrt_like, like, shaped, one_input. simpl. repeat first [simpl; lra | split | constructor].
  - exists [ (fun f => categorical_targets [[1; 0]; [2; 5]] (fun t => f (cat_grad [[1; 0]; [2; 5]] t)));
             (fun f => bernoulli_targets [[1]] (fun t => f (bern_grad [[1]] t)));
             (fun f => normal_targets [[1; 2]] (constant_like 3 [[1; 2]]) (fun t => f (normal_grad 3 [[1; 2]] t))) ].
    constructor; [|constructor; [|constructor; [|constructor]]].
    + simpl fst. apply sg_categorical; [lia|]. intros t Ht. split; [apply cat_gradient; auto|].
      apply (cat_grad_shaped 2 [[1; 0]; [2; 5]]); auto. split; simpl; auto.
    + simpl fst. apply sg_multi_bernoulli. intros t Ht. split.
      * apply bern_gradient; auto. symmetry; eapply F2_length; eauto.
      * apply (bern_grad_shaped 1 [[1]]); auto. split; simpl; auto.
    + simpl fst. apply sg_normal_mean. intros t Ht.
      assert (Hm : shaped 1 2 [[1; 2]]) by (split; simpl; auto). split.
      * apply normal_gradient; [lra|apply Ht|now apply (MomentProofs.paired_rows 1 2)].
      * now apply MomentProofs.normal_grad_shaped.
Qed.
