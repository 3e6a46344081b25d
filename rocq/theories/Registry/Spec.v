(** What the registration properties (C19-C28) speak about, independently of how the
    registry is implemented. *)
From Coq Require Import String List Arith ZArith Bool Reals.
From Verif.Base Require Import Py.
From Verif.Registry Require Import Model.
Import ListNotations.
Open Scope list_scope.

(** Variable [v] belongs to the registered block with key [p]. *)
Definition owns (c : coll) (p : params) (v : nat) : Prop :=
  exists b, In (p, b) (c_blocks c) /\ In v (vars_of p).

(** The parts of the model a layer call registers: parameters, tower data, and the
    number of uses it declares.  A separable convolution registers two. *)
Record part := mkPart { pt_params : params; pt_tower : tower; pt_uses : uses }.
Definition one (i : targ) : list nat := [a_id i].
Definition num_inputs (i : targs) : nat :=
  match i with AOne _ => 1 | AMany ts => List.length ts end.
Definition parts (l : layer_call) : list part :=
  match l with
  | FullyConnected p i o _ _ _ => [mkPart p (mkTower (one i) (one o)) (Fin 1)]
  | Conv1d p i o _ _ => [mkPart p (mkTower (one i) (one o)) (Fin 1)]
  | Conv2d p _ _ i o _ _ _ => [mkPart p (mkTower (one i) (one o)) (Fin 1)]
  | Convolution p i o _ _ => [mkPart p (mkTower (one i) (one o)) (Fin 1)]
  | Depthwise p _ _ i o _ _ _ => [mkPart p (mkTower (one i) (one o)) (Fin 1)]
  | Separable dp pp _ _ i d o _ _ _ =>
      [mkPart dp (mkTower (one i) (one d)) (Fin 1); mkPart pp (mkTower (one d) (one o)) (Fin 1)]
  | Generic p b _ _ => [mkPart p (mkTower [b] []) Inf]
  | FullyConnectedMulti p i o _ _ _ => [mkPart p (mkTower (ids i) (ids o)) (Fin (num_inputs i))]
  | Conv2dMulti p i o _ _ _ => [mkPart p (mkTower (ids i) (ids o)) (Fin (num_inputs i))]
  | ScaleAndShift p i o _ _ => [mkPart p (mkTower (one i) (one o)) (Fin 1)]
  end.
Definition reuse_of (l : layer_call) : reuse :=
  match l with
  | FullyConnected _ _ _ _ _ r | Conv1d _ _ _ _ r | Conv2d _ _ _ _ _ _ _ r
  | Convolution _ _ _ _ r | Depthwise _ _ _ _ _ _ _ r | Separable _ _ _ _ _ _ _ _ _ r
  | Generic _ _ _ r | FullyConnectedMulti _ _ _ _ _ r | Conv2dMulti _ _ _ _ _ r
  | ScaleAndShift _ _ _ _ r => r
  end.

(** Calls whose every error is detected before the collection is touched: not a
    separable convolution (two registrations), index inputs only with a single
    parameter variable that has a dimension, and multi-use calls whose inputs and
    outputs are both lists of the same length (or a single input tensor). *)
Definition indexable (shape : nat -> list nat) (p : params) : Prop :=
  exists v, p = PVar v /\ shape v <> [].
Definition matching (i o : targs) : Prop :=
  match i, o with
  | AOne _, _ => True
  | AMany ts, AMany us => List.length ts = List.length us
  | AMany _, AOne _ => False
  end.
Definition clean (shape : nat -> list nat) (l : layer_call) : Prop :=
  match l with
  | FullyConnected p _ _ _ dense _ => dense = true \/ indexable shape p
  | Separable _ _ _ _ _ _ _ _ _ _ => False
  | FullyConnectedMulti p i o _ dense _ =>
      (dense = true \/ indexable shape p) /\ matching i o
  | Conv2dMulti _ i o _ _ _ => matching i o
  | _ => True
  end.
Definition clean_call (shape : nat -> list nat) (k : call) : Prop :=
  match k with Layer _ l => clean shape l | _ => True end.

(** Calls that register layers (as opposed to losses, checks, ...) and the history of
    those that succeeded. *)
Fixpoint succeeded (shape : nat -> list nat) (h : list call) (c : coll) : list layer_call :=
  match h with
  | [] => []
  | k :: h' =>
      let '(c', r) := run_call shape k c in
      match k, r with
      | Layer _ l, Ok _ => l :: succeeded shape h' c'
      | _, _ => succeeded shape h' c'
      end
  end.
(** The tower data registered for [p], and the uses declared for variable [v], by a
    list of successful calls. *)
Definition towers_for (ls : list layer_call) (p : params) : list tower :=
  concat (map (fun l => map pt_tower (filter (fun t => params_eqb (pt_params t) p) (parts l))) ls).
Definition declared_by (t : part) (v : nat) : uses :=
  fold_right uses_add (Fin 0)
    (map (fun w => if Nat.eqb w v then pt_uses t else Fin 0) (vars_of (pt_params t))).
Definition declared (ls : list layer_call) (v : nat) : uses :=
  fold_right uses_add (Fin 0)
    (map (fun l => fold_right uses_add (Fin 0) (map (fun t => declared_by t v) (parts l))) ls).

(** Which approximation a layer call must use, given its explicit argument, the linked
    groups and the default. *)
Definition same_set (a b : list nat) : Prop := forall v, In v a <-> In v b.
Inductive selects (c : coll) (p : params) (default : string) : option string -> string -> Prop :=
| sel_explicit a : selects c p default (Some a) a
| sel_linked s a : In (s, Some a) (c_linked c) -> same_set s (vars_of p) ->
    selects c p default None a
| sel_default : (forall s a, In (s, Some a) (c_linked c) -> ~ same_set s (vars_of p)) ->
    selects c p default None default.

(** The layer type of a call that consults an approximation table. *)
Definition kind_of (l : layer_call) : option (kind * params * option string) :=
  match l with
  | FullyConnected p _ _ a _ _ => Some (KFc, p, a)
  | Conv2d p _ _ _ _ _ a _ => Some (KConv2d, p, a)
  | Generic p _ a _ => Some (KGeneric, p, a)
  | FullyConnectedMulti p _ _ a _ _ => Some (KFcMulti, p, a)
  | Conv2dMulti p _ _ _ a _ => Some (KConv2dMulti, p, a)
  | ScaleAndShift p _ _ a _ => Some (KScaleShift, p, a)
  | _ => None
  end.
Definition default_of (k : kind) (d : defaults) : string :=
  match k with
  | KGeneric => d_generic d | KFc => d_fc d | KConv2d => d_conv2d d
  | KFcMulti => d_fc_multi d | KConv2dMulti => d_conv2d_multi d
  | KScaleShift => d_scale_shift d
  end.

(** The approximations each registration function documents, and the type of
    Fisher block each of them stands for. *)
Definition documented (kd : kind) (a : string) (k : cls) : Prop :=
  match kd with
  | KGeneric => (a = "full" /\ k = NaiveFullFB) \/ (a = "diagonal" /\ k = NaiveDiagonalFB)
  | KFc => (k = FullyConnectedKFACBasicFB /\
            (a = "kron" \/ a = "kron_in_diag" \/ a = "kron_out_diag" \/ a = "kron_both_diag"))
           \/ (k = FullyConnectedDiagonalFB /\ a = "diagonal")
  | KConv2d => (k = ConvKFCBasicFB /\ (a = "kron" \/ a = "kron_sua"))
               \/ (k = ConvDiagonalFB /\ a = "diagonal")
  | KFcMulti => (k = FullyConnectedMultiIndepFB /\
                 (a = "kron_indep" \/ a = "kron_indep_in_diag" \/ a = "kron_indep_out_diag" \/
                  a = "kron_indep_both_diag"))
                \/ (k = FullyConnectedSeriesFB /\ (a = "kron_series_1" \/ a = "kron_series_2"))
  | KConv2dMulti => k = ConvKFCBasicMultiIndepFB /\ a = "kron_indep"
  | KScaleShift => (k = ScaleAndShiftFullFB /\ a = "full")
                   \/ (k = ScaleAndShiftDiagonalFB /\ a = "diagonal")
  end%string.

(** Block type and approximation a single-layer call asks for. *)
Inductive asks (c : coll) : layer_call -> cls -> string -> Prop :=
| ask_table l kd p ap k a : kind_of l = Some (kd, p, ap) -> vars_of p <> [] ->
    selects c p (default_of kd (c_def c)) ap a -> In (a, k) (table_of kd) -> asks c l k a
| ask_conv1d p i o ap r : asks c (Conv1d p i o ap r) ConvKFCBasicFB "kron"
| ask_convolution p i o ap r : asks c (Convolution p i o ap r) ConvKFCBasicFB "kron"
| ask_depthwise p s t i o f ap r :
    asks c (Depthwise p s t i o f ap r) DepthwiseConvDiagonalFB "diagonal".

(** The reuse flag a call acts on: its own argument, unless that says to follow the
    enclosing variable scope. *)
Definition effective_reuse (scope r : reuse) : reuse :=
  match r with RScope => scope | explicit => explicit end.

(** The same call with another [reuse] argument. *)
Definition with_reuse (r : reuse) (l : layer_call) : layer_call :=
  match l with
  | FullyConnected p i o a d _ => FullyConnected p i o a d r
  | Conv1d p i o a _ => Conv1d p i o a r
  | Conv2d p s d i o f a _ => Conv2d p s d i o f a r
  | Convolution p i o a _ => Convolution p i o a r
  | Depthwise p s t i o f a _ => Depthwise p s t i o f a r
  | Separable dp pp s t i d o f a _ => Separable dp pp s t i d o f a r
  | Generic p b a _ => Generic p b a r
  | FullyConnectedMulti p i o a d _ => FullyConnectedMulti p i o a d r
  | Conv2dMulti p i o f a _ => Conv2dMulti p i o f a r
  | ScaleAndShift p i o a _ => ScaleAndShift p i o a r
  end.

(** Multiplier of a loss with coefficient [k]. *)
Definition weight (m : coeff_mode) (k : R) : R :=
  match m with Regular => k | Sqrt => sqrt k | Off => 1 end.
Fixpoint rsum (l : list R) : R := match l with [] => 0%R | x :: l' => (x + rsum l')%R end.

(** No call of the history is a check_registration. *)
Definition no_check (h : list call) : Prop :=
  Forall (fun k => match k with Check _ _ => False | _ => True end) h.
(** Multi-use registrations have at least one use. *)
Definition used (k : call) : Prop :=
  match k with
  | Layer _ (FullyConnectedMulti _ i _ _ _ _) | Layer _ (Conv2dMulti _ i _ _ _ _) =>
      num_inputs i <> 0
  | _ => True
  end.
