(** Model of the lists of variables that a factor gives out, and of the inverse update of the
    replica round robin placement that relies on them.  The variables are those of Names/Model.v. *)
From Coq Require Import String QArith Arith Bool List.
From Verif.Base Require Import Py.
From Verif.Names Require Import Model.
Import ListNotations.
Open Scope list_scope.

(** What a list can hold: a variable, a tuple of variables, or a tensor computed from variables. *)
Inductive item := IVar (n : string) | ITuple (ns : list string) | IValue (ns : list string).

(** MovingAverageVariable.value (utils.py:1295-1300) of the average in [scope] *)
Definition average_item (k : consts) (scope : string) : item :=
  if k_zero_debias k then IValue [slash scope "var"; slash scope "total_weight"]
  else IValue [slash scope "var"].

(** get_cov_vars (fisher_factors.py:617-622, 2638-2647); only FullyConnectedMultiKF overrides it. *)
Definition get_cov_vars (k : consts) (w : world) (scope : string) (f : factor) : res (list item) :=
  do vs <- var_scope w f ;
  let here := slash scope vs in
  match f with
  | FCMulti _ _ _ true => Ok [average_item k (slash here "cov"); average_item k (slash here "cov_dt1")]
  | _ => Ok [average_item k (slash here "cov")]
  end.

(** get_inv_vars after the variables were made: none by default (624-625), all of them for dense
    factors (757-762), the matrix powers for the SUA factor (2064-2067), and tuples for the
    quantities of layers that are used several times (2547-2551). *)
Definition power_items (w : world) (here : string) (r : regs) : list item :=
  map (fun p => IVar (slash here (matpower_name w (fst p) (snd p)))) (r_matpower r).
Definition dense_items (w : world) (here : string) (r : regs) : list item :=
  power_items w here r ++
  map (fun id => IVar (slash here ("cholesky_damp" ++ damping_string w id)%string)) (r_cholesky r) ++
  map (fun id => IVar (slash here ("cholesky_inverse_damp" ++ damping_string w id)%string)) (r_cholinv r).
Definition option_items (w : world) (here : string) (r : regs) : list item :=
  map (fun id => let d := damping_string w id in
        ITuple [slash here ("Lmat_damp" ++ d)%string; slash here ("psi_damp" ++ d)%string]) (r_opt1 r) ++
  map (fun id => let d := damping_string w id in
        ITuple [slash here ("Lmat_damp" ++ d)%string; slash here ("Kmat_damp" ++ d)%string;
                slash here ("mu_damp" ++ d)%string]) (r_opt2 r).
Definition get_inv_vars (w : world) (scope : string) (fr : factor * regs) : res (list item) :=
  let '(f, r) := fr in
  match f with
  | NaiveDiagonal _ _ | DiagonalKronecker _ _ | DiagonalMulti _ _ _ | FCDiagonal _ _ _
  | ConvDiagonal _ _ _ | ScaleShift false _ _ _ _ _ => Ok []
  | ConvInputSUA _ _ _ => do vs <- var_scope w f ; Ok (power_items w (slash scope vs) r)
  | FCMulti _ _ _ _ =>
      do vs <- var_scope w f ;
      Ok (dense_items w (slash scope vs) r ++ option_items w (slash scope vs) r)
  | _ => do vs <- var_scope w f ; Ok (dense_items w (slash scope vs) r)
  end.

(** utils.smart_assign (38-89) to an item: tf.assign reads an attribute that a tuple does not have. *)
Definition assigned (i : item) : res string :=
  match i with IVar n => Ok n | ITuple _ => Raise AttributeError | IValue _ => Raise AttributeError end.

(** The assignments of the inverse update thunk (placement.py:286-309), as the names of the variables
    that every replica assigns.  [zip] with a starred empty argument cannot be unpacked. *)
Definition replica_assigned (w : world) (scope : string) (frs : list (factor * regs))
  : res (list string) :=
  do items <- mapm (get_inv_vars w scope) frs ;
  match filter (fun l => match l with [] => false | _ => true end) items with
  | [] => Raise ValueError
  | ls => mapm assigned (concat ls)
  end.
