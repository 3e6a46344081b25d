(** Vocabulary of property C121: the same training, with the parameters in other
    coordinates. *)
From Coq Require Import List Arith Bool Reals.
From Verif.Base Require Import Py.
From Verif.Tensors Require Import Model.
From Verif.Train Require Import Model Spec.
Import ListNotations.
Open Scope list_scope.
Open Scope R_scope.

(** [P j v v']: the vector [v'] is what [v], in the shape of variable [j], is in the other
    coordinates.  Sums and multiples are taken coordinate by coordinate on either side, and
    inner products are the same. *)
Definition isometric (P : nat -> vec -> vec -> Prop) : Prop :=
  (forall j a v v', P j v v' -> P j (vscale a v) (vscale a v')) /\
  (forall j v v' w w', P j v v' -> P j w w' -> P j (vadd v w) (vadd v' w')) /\
  (forall j v v' w w', P j v v' -> P j w w' -> dot v' w' = dot v w).

(** Coordinates given by matrices: variable [j] has [n j] entries, and the rows of [Q j] give
    the new coordinates. *)
Definition matvec (rows : list vec) (v : vec) : vec := map (fun r => dot r v) rows.
Definition preserves_products (n : nat) (rows : list vec) : Prop :=
  forall v w, length v = n -> length w = n -> dot (matvec rows v) (matvec rows w) = dot v w.
Definition in_coordinates (n : nat -> nat) (Q : nat -> list vec) (j : nat) (v v' : vec) : Prop :=
  length v = n j /\ v' = matvec (Q j) v.

(** Lists of (tensor, variable) pairs. *)
Definition same_pairs (P : nat -> vec -> vec -> Prop) (l l' : pairs) : Prop :=
  Forall2 (fun p q => snd q = snd p /\ P (snd p) (fst p) (fst q)) l l'.

(** States: parameters and velocities are in the other coordinates, everything else is the
    same. *)
Definition same_state (P : nat -> vec -> vec -> Prop) (s s' : st) : Prop :=
  (forall j, P j (s_params s j) (s_params s' j)) /\
  (forall j, P j (s_vel s j) (s_vel s' j)) /\
  s_damping s' = s_damping s /\ s_rho s' = s_rho s /\ s_prev_loss s' = s_prev_loss s /\
  s_qlr s' = s_qlr s /\ s_qmom s' = s_qmom s /\ s_qchange s' = s_qchange s /\
  s_counter s' = s_counter s.

(** What a step sees of the rest of the library: the preconditioner and the curvature give the
    same vectors in the other coordinates, the losses and the factor of the curvature (whose
    values belong to the outputs of the network) are the same. *)
Definition same_ctx (P : nat -> vec -> vec -> Prop) (x x' : ctx) : Prop :=
  (forall g g', same_pairs P g g' -> same_pairs P (x_precond x g) (x_precond x' g')) /\
  (forall u u', same_pairs P u u' -> same_pairs P (x_mult x u) (x_mult x' u')) /\
  (forall u u', same_pairs P u u' -> x_mft x' (map fst u') = x_mft x (map fst u)) /\
  x_loss x' = x_loss x /\
  (forall p p', (forall j, P j (p j) (p' j)) -> x_loss_fn x' p' = x_loss_fn x p) /\
  (forall p p', (forall j, P j (p j) (p' j)) -> x_prev_loss_fn x' p' = x_prev_loss_fn x p).

(** Both succeed, with related results, or both raise the same exception. *)
Definition res_rel {A} (P : A -> A -> Prop) (r r' : res A) : Prop :=
  match r, r' with
  | Ok a, Ok a' => P a a'
  | Raise e, Raise e' => e = e'
  | _, _ => False
  end.

(** Covariances in the other coordinates: a linear map per factor. *)
Definition linear_map {I} (L : (I -> R) -> (I -> R)) : Prop :=
  forall a b f g, L (fun i => a * f i + b * g i) = (fun i => a * L f i + b * L g i).
Definition moved_cov {I} (Ls : list ((I -> R) -> (I -> R))) (cov : list (mav I)) : list (mav I) :=
  map (fun p => mkMav (fst p (m_var (snd p))) (m_weight (snd p)) (m_norm (snd p))) (zip Ls cov).

(** Inverses that do the same in the other coordinates. *)
Definition same_inv {Batch I Inv} (P : nat -> vec -> vec -> Prop) (Ls : list ((I -> R) -> (I -> R)))
    (e e' : env Batch I Inv) (inv inv' : Inv) : Prop :=
  (forall g g', same_pairs P g g' -> same_pairs P (e_precond e inv g) (e_precond e' inv' g')) /\
  (forall cov damping u u', same_pairs P u u' ->
     same_pairs P (e_mult e cov inv damping u) (e_mult e' (moved_cov Ls cov) inv' damping u')).

(** The same model and data: the loss is the same function of what the parameters stand for,
    its gradient, the statistics and the inverses are those of the other coordinates. *)
Definition same_env {Batch I Inv} (P : nat -> vec -> vec -> Prop) (Ls : list ((I -> R) -> (I -> R)))
    (e e' : env Batch I Inv) : Prop :=
  Forall linear_map Ls /\
  (forall p p' b, (forall j, P j (p j) (p' j)) -> same_pairs P (e_grads e p b) (e_grads e' p' b)) /\
  (forall p p' b, (forall j, P j (p j) (p' j)) -> e_loss e' b p' = e_loss e b p) /\
  (forall p p' b, (forall j, P j (p j) (p' j)) ->
     e_stats e' p' b = map (fun q => fst q (snd q)) (zip Ls (e_stats e p b))) /\
  (forall p p' b u u', (forall j, P j (p j) (p' j)) -> same_pairs P u u' ->
     e_mft e' p' b (map fst u') = e_mft e p b (map fst u)) /\
  (forall cov damping, same_inv P Ls e e' (e_invert e cov damping) (e_invert e' (moved_cov Ls cov) damping)).
