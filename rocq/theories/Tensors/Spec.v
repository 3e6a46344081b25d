(** Vocabulary for the tensor properties. *)
From Coq Require Import String Ascii List Arith ZArith Bool Reals.
From Verif.Base Require Import Py ListFacts.
From Verif.Tensors Require Import Model.
Import ListNotations.
Open Scope list_scope.

(** Same container kind (single tensor or list) and same shapes. *)
Definition same_shapes {A} (x y : tens_or_list A) : Prop :=
  match x, y with
  | One t, One u => t_shape t = t_shape u
  | Many ts, Many us => map t_shape ts = map t_shape us
  | _, _ => False
  end.
Definition all_wf {A} (x : tens_or_list A) : Prop :=
  match x with One t => wf t | Many ts => forall t, In t ts -> wf t end.
(** All entries, tensor after tensor, each in row-major order. *)
Definition flat {A} (x : tens_or_list A) : list A :=
  match x with One t => t_data t | Many ts => concat (map t_data ts) end.
Definition total_size {A} (x : tens_or_list A) : nat :=
  match x with
  | One t => size (t_shape t)
  | Many ts => fold_right Nat.add 0 (map (fun t => size (t_shape t)) ts)
  end.

(** What an assignment with a scalar or nested sequence key means: the list of
    scalar assignments, in order (a longer side is cut off, as by zip). *)
Inductive assigns : skey -> sval -> list (nat * sval) -> Prop :=
| as_scalar k v : assigns (KScalar k) v [(k, v)]
| as_seq ks vs l : assigns_seq ks vs l -> assigns (KSeq ks) (VSeq vs) l
with assigns_seq : list skey -> list sval -> list (nat * sval) -> Prop :=
| as_nil_l vs : assigns_seq [] vs []
| as_nil_r k ks : assigns_seq (k :: ks) [] []
| as_cons k ks v vs l1 l2 :
    assigns k v l1 -> assigns_seq ks vs l2 -> assigns_seq (k :: ks) (v :: vs) (l1 ++ l2).

(** [latest l k v]: in the list [l] of scalar assignments (oldest first) the last one
    to [k] stores [v]. *)
Definition latest (l : list (nat * sval)) (k : nat) (v : sval) : Prop :=
  exists l1 l2, l = l1 ++ (k, v) :: l2 /\ forall v', ~ In (k, v') l2.

(** Effective weights of a decayed average: the contribution of each value is its
    weight times all later decays.  History entries are (value, decay, weight),
    oldest first. *)
Fixpoint later_decays {V} (h : list (V * R * R)) : R :=
  match h with [] => 1 | (_, d, _) :: h' => d * later_decays h' end%R.
Fixpoint total_weight {V} (h : list (V * R * R)) : R :=
  match h with
  | [] => 0
  | (_, _, w) :: h' => w * later_decays h' + total_weight h'
  end%R.
Fixpoint weighted_sum {V} (f : V -> R) (h : list (V * R * R)) : R :=
  match h with
  | [] => 0
  | (v, _, w) :: h' => w * later_decays h' * f v + weighted_sum f h'
  end%R.

Definition Rsum (l : list R) : R := fold_right Rplus 0%R l.

(** Kernel placements along one axis of length [n]: positions [p] that are multiples
    of the stride [s] at which a kernel of length [f] fits. *)
Definition placements (n f s : nat) : list nat :=
  filter (fun p => Nat.eqb (p mod s) 0 && Nat.leb (p + f) n) (seq 0 (n + 1)).
(** Stride multiples inside the axis. *)
Definition stride_points (n s : nat) : list nat :=
  filter (fun p => Nat.eqb (p mod s) 0) (seq 0 n).

(** Equality of rank-4 filters: same dimensions, same entries inside them. *)
Definition filter_eq (f g : filter4) : Prop :=
  f_h f = f_h g /\ f_w f = f_w g /\ f_in f = f_in g /\ f_out f = f_out g /\
  forall a b c d, a < f_h f -> b < f_w f -> c < f_in f -> d < f_out f ->
    f_at f a b c d = f_at g a b c d.

(** What the two convolutions compute at one output position, for the input patch
    [x] under the filter. *)
Definition sum_to (n : nat) (g : nat -> R) : R := Rsum (map g (seq 0 n)).
Definition conv2d_at (f : filter4) (x : nat -> nat -> nat -> R) (o : nat) : R :=
  sum_to (f_h f) (fun a => sum_to (f_w f) (fun b =>
    sum_to (f_in f) (fun c => x a b c * f_at f a b c o)%R)).
Definition depthwise_at (f : filter4) (x : nat -> nat -> nat -> R) (i m : nat) : R :=
  sum_to (f_h f) (fun a => sum_to (f_w f) (fun b => x a b i * f_at f a b i m)%R).

(** The padding argument spells "valid", in any mixture of cases. *)
Definition letter (lo up c : ascii) : Prop := c = lo \/ c = up.
Definition spells_valid (s : string) : Prop :=
  exists a b c d e,
    s = String a (String b (String c (String d (String e EmptyString)))) /\
    letter "v" "V" a /\ letter "a" "A" b /\ letter "l" "L" c /\
    letter "i" "I" d /\ letter "d" "D" e.
