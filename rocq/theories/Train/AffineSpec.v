(** Vocabulary of property C123: the same training, with the parameters in any other
    coordinates. *)
From Coq Require Import List Arith Bool Reals.
From Verif.Base Require Import Py.
From Verif.Tensors Require Import Model.
From Verif.Train Require Import Model Spec RotateSpec.
Import ListNotations.
Open Scope list_scope.
Open Scope R_scope.

(** [P j v v']: the change [v'] of variable [j] is what the change [v] is in the other
    coordinates.  [D j g g']: the gradient [g'] is what the gradient [g] is.  Sums and
    multiples are taken coordinate by coordinate on either side.  Only the product of a
    gradient with a change (the first-order change of the loss) is the same; lengths and angles
    need not be. *)
Definition dual (P D : nat -> vec -> vec -> Prop) : Prop :=
  (forall j a v v', P j v v' -> P j (vscale a v) (vscale a v')) /\
  (forall j v v' w w', P j v v' -> P j w w' -> P j (vadd v w) (vadd v' w')) /\
  (forall j a v v', D j v v' -> D j (vscale a v) (vscale a v')) /\
  (forall j v v' w w', D j v v' -> D j w w' -> D j (vadd v w) (vadd v' w')) /\
  (forall j v v' g g', P j v v' -> D j g g' -> dot g' v' = dot g v).

(** Coordinates given by matrices: the rows of [Q j] give the new coordinates of a change and
    those of [T j] the new coordinates of a gradient. *)
Definition dual_matrices (n : nat) (rows rows' : list vec) : Prop :=
  forall v g, length v = n -> length g = n -> dot (matvec rows' g) (matvec rows v) = dot g v.

(** The velocities are sums of updates, except with the momentum type that accumulates
    gradients and preconditions their sum. *)
Definition vel_kind (t : mtype) (P D : nat -> vec -> vec -> Prop) : nat -> vec -> vec -> Prop :=
  match t with Adam => D | _ => P end.

(** States: parameters and velocities are in the other coordinates, everything else is the
    same. *)
Definition affine_state (c : cfg) (P D : nat -> vec -> vec -> Prop) (s s' : st) : Prop :=
  (forall j, P j (s_params s j) (s_params s' j)) /\
  (forall j, vel_kind (c_mtype c) P D j (s_vel s j) (s_vel s' j)) /\
  s_damping s' = s_damping s /\ s_rho s' = s_rho s /\ s_prev_loss s' = s_prev_loss s /\
  s_qlr s' = s_qlr s /\ s_qmom s' = s_qmom s /\ s_qchange s' = s_qchange s /\
  s_counter s' = s_counter s.

(** What a step sees: the preconditioner turns gradients into changes, and the factor of the
    curvature, whose values belong to the outputs of the network, is the same. *)
Definition affine_ctx (P D : nat -> vec -> vec -> Prop) (x x' : ctx) : Prop :=
  (forall g g', same_pairs D g g' -> same_pairs P (x_precond x g) (x_precond x' g')) /\
  (forall u u', same_pairs P u u' -> x_mft x' (map fst u') = x_mft x (map fst u)).

(** The damping is not adapted, and the quadratic model, where it is used, has none. *)
Definition undamped (c : cfg) (damping : R) : Prop :=
  c_adapt c = false /\
  match c_mtype c with Qmodel | QmodelFixedMu => damping = 0 | _ => True end.

(** The same model and data.  The inverses of covariances that are [good] (can be inverted) with
    the given damping turn gradients into changes. *)
Definition affine_env {Batch I Inv} (P D : nat -> vec -> vec -> Prop) (Ls : list ((I -> R) -> (I -> R)))
    (good : list (mav I) -> Prop) (damping : R) (e e' : env Batch I Inv) : Prop :=
  Forall linear_map Ls /\
  (forall p p' b, (forall j, P j (p j) (p' j)) -> same_pairs D (e_grads e p b) (e_grads e' p' b)) /\
  (forall p p' b, (forall j, P j (p j) (p' j)) ->
     e_stats e' p' b = map (fun q => fst q (snd q)) (zip Ls (e_stats e p b))) /\
  (forall p p' b u u', (forall j, P j (p j) (p' j)) -> same_pairs P u u' ->
     e_mft e' p' b (map fst u') = e_mft e p b (map fst u)) /\
  (forall cov, good cov -> forall g g', same_pairs D g g' ->
     same_pairs P (e_precond e (e_invert e cov damping) g)
                  (e_precond e' (e_invert e' (moved_cov Ls cov) damping) g')).
