(** Model of multiply_fisher and multiply_ggn
    (kfac/python/ops/curvature_matrix_vector_products.py:169-174, 198-202) on computation graphs. *)
From Coq Require Import List Arith Bool Reals.
From Verif.Base Require Import Py.
From Verif.Diff Require Import Model.
Import ListNotations.
Open Scope list_scope.

Section Ggn.
Variable O : ops.
(** 169-174 with the Fishers of the losses, 198-202 with their Gauss-Newton matrices: [product]
    puts the products of all losses with the given nodes, times the coefficients, into the graph
    (122-138, 152-155; modelled loss by loss in Curv/Model.v).  Without a gradient for one of the
    inputs a loss is given None, which no product accepts: some exception, here TypeError. *)
Definition multiply_ggn (product : graph O -> list nat -> graph O * list nat)
    (G : graph O) (inputs wrt vecs : list nat) : res (graph O * list (option nat)) :=
  let (G1, jacobian_vecs) := multiply_jacobian O G inputs wrt vecs in
  match all_some jacobian_vecs with
  | None => Raise TypeError
  | Some jvs =>
      let (G2, loss_vecs) := product G1 jvs in
      Ok (multiply_jacobian_transpose O G2 inputs wrt loss_vecs)
  end.
End Ggn.

(** The products of squared error losses (layer_collection.py:1650-1655: a normal distribution with
    variance 0.5) of one prediction each, with their coefficients: loss_functions.py:404-405
    [(1. / self._var) * vector], then curvature_matrix_vector_products.py:133-135.  A tensor of
    predictions is given by its entries. *)
Fixpoint squared_products (O : ops) (coeffs : list R) (G : graph O) (js : list nat) : graph O * list nat :=
  match coeffs, js with
  | c :: coeffs', j :: js' =>
      let n := length G in
      let (G', us) := squared_products O coeffs' (Mul (2 + n)%nat (1 + n)%nat :: Const c :: Mul n j :: Const (1 / (1 / 2))%R :: G) js' in
      (G', (3 + n)%nat :: us)
  | _, _ => (G, [])
  end.
