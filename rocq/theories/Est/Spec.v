(** What the life cycle of an estimator promises, in terms of the graph, the thunks and the
    requested matrix functions. *)
From Coq Require Import String QArith Arith Bool List Reals.
From Verif.Base Require Import Py.
From Verif.Train Require Import Model.
From Verif.Est Require Import Model.
Import ListNotations.
Open Scope list_scope.

(** * Graphs *)

(** Some registered loss depends on the tensor. *)
Definition connected (g : graph) (x : nat) : Prop :=
  exists l, In l (g_losses g) /\ g_dep g l x = true.

(** Gradients have the size of the tensor and are zero where there is no dependence. *)
Definition well_formed (g : graph) (contrib : nat -> nat -> vec) : Prop :=
  forall l x, length (contrib l x) = g_dim g x /\
    (g_dep g l x = false -> forall j, nth j (contrib l x) 0%R = 0%R).

(** The modes in which one gradient of all the losses is taken. *)
Definition one_gradient_mode (g : graph) (mode : string) : Prop :=
  mode = "gradients"%string \/ (mode = "empirical"%string /\ forallb (g_targets g) (g_losses g) = true) \/
  mode = "curvature_prop"%string \/ mode = "curvature_prop_GGN"%string.

(** What is differentiated in such a mode. *)
Definition differentiated (g : graph) (mode : string) : nat -> nat -> vec :=
  if String.eqb mode "gradients" then g_sample g
  else if String.eqb mode "empirical" then g_data g
  else g_signs g.

(** The tensors whose gradients the estimator needs. *)
Definition needed (variables : pyseq) (stats : option nat) (blocks : list (list nat)) : list nat :=
  concat blocks ++ match stats with None => [] | Some _ => items variables end.

(** * Orders of thunks *)

(** [a] runs before every occurrence of [b]. *)
Definition before (a b : thunk) (ts : list thunk) : Prop :=
  forall pre post, ts = pre ++ b :: post -> In a pre.
Definition makes_variables (t : thunk) : bool :=
  match t with CovVar _ | InvVar _ => true | _ => false end.
(** The documented order, and no variables are made twice. *)
Definition documented_order (ts : list thunk) : Prop :=
  (forall i, before (CovVar i) (CovUpdate i) ts /\ before (CovVar i) (InvUpdate i) ts /\
             before (InvVar i) (InvUpdate i) ts) /\
  NoDup (filter makes_variables ts).
(** In addition, the statistics that a damping is computed from exist when it is computed. *)
Definition damping_order (fs : list tfactor) (ts : list thunk) : Prop :=
  forall i j, tf_inverses (nth i fs no_factor) <> [] -> In j (tf_reads (nth i fs no_factor)) ->
    before (CovVar j) (InvUpdate i) ts.
(** The ops that the update thunks are meant to make, in the order of the thunks. *)
Definition meant (fs : list tfactor) (ts : list thunk) : list made :=
  concat (map (fun t => match t with
                        | CovUpdate i => [UpdatesCov i]
                        | InvUpdate i => [UpdatesInverses (tf_inverses (nth i fs no_factor))]
                        | _ => []
                        end) ts).
Definition nothing_made : tstate := mkTS [] [].

(** * Matrix functions *)

Definition asked (exps : list Q) (e : Q) : Prop := exists e', In e' exps /\ (e == e')%Q.
Definition diagonal_block (b : mblock) : Prop :=
  b = MDiag \/ exists fl dl fr dr, b = MKron Diagonal fl dl Diagonal fr dr.
Definition series_block (b : mblock) : Prop := exists fl dl fr dr, b = MSeries fl dl fr dr.
(** Some factor of the block is an SUA factor. *)
Definition sua_block (b : mblock) : Prop :=
  exists kl fl dl kr fr dr, b = MKron kl fl dl kr fr dr /\ (kl = SUA \/ kr = SUA).
