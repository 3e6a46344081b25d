(** Model of kfac/python/ops/kfac_utils/data_reader.py and data_reader_alt.py: readers that
    keep the previous mini-batch. *)
From Coq Require Import List Arith Bool.
From Verif.Base Require Import Py.
Import ListNotations.

(** The readers build graph operations; a session.run executes some of them in any order that
    respects data and control dependencies, and stops when one of them fails (those already
    executed have had their effect).  An execution is therefore a list of operations; which
    lists are possible is said by [requires].  A data set is a list of tensors, a tensor a
    list of rows; rows are arbitrary.  Simplification: batch sizes are not negative. *)

(** Position of [i] in a list of tensors. *)
Definition set_nth {B} (l : list B) (i : nat) (x : B) : list B :=
  firstn i l ++ match skipn i l with [] => [] | _ :: r => x :: r end.
Fixpoint assoc {B} (l : list (nat * B)) (i : nat) : option B :=
  match l with
  | [] => None
  | (j, x) :: l' => if Nat.eqb j i then Some x else assoc l' i
  end.

(* ------------------------------------------------------------------------ *)
(** * data_reader.py *)

Inductive op :=
| ReadCached (i : nat)     (* data_reader.py:101-102: cached_batch[i] *)
| Check                    (* 63-67: assert_less_equal *)
| Take (i : nat)           (* 68-69: data[:batch_size] *)
| SetSize                  (* 119: _cached_batch_size.assign(batch_size) *)
| Store (i : nat)          (* 120-123: prev[:batch_size].assign(cur) *)
| Return (i : nat).        (* 124-125: the identities that are returned *)

(** The dependencies, for [k] tensors: [requires k o p] if [p] has to run before [o].
    The assignments depend on the cached batch (118); the check is a dependency of the slices
    only (68); the identities depend on all assignments (124). *)
Definition requires (k : nat) (o p : op) : Prop :=
  match o with
  | ReadCached _ | Check => False
  | Take _ => p = Check
  | SetSize => exists j, j < k /\ p = ReadCached j
  | Store i => p = Take i \/ exists j, j < k /\ p = ReadCached j
  | Return i => p = Take i \/ p = SetSize \/ exists j, j < k /\ p = Store j
  end.
Definition op_index (o : op) : option nat :=
  match o with
  | ReadCached i | Take i | Store i | Return i => Some i
  | Check | SetSize => None
  end.

Section Reader.
Context {row : Type}.

(** The variables of the reader (89-99). *)
Record vars := mkVars { v_storage : list (list row); v_size : nat }.
(** The values computed in one session.run. *)
Record values := mkValues {
  x_read : list (nat * list row);
  x_taken : list (nat * list row);
  x_returned : list (nat * list row) }.
Definition no_values : values := mkValues [] [] [].

(** 30-31, 101-102 *)
Definition cached_batch (s : vars) : list (list row) := map (firstn (v_size s)) (v_storage s).

(** One operation of a run with batch size [b] and current data set [data].  A strided-slice
    assignment needs a value of the shape of the slice. *)
Definition step (max b : nat) (data : list (list row)) (o : op) (s : vars) (x : values)
  : res (vars * values) :=
  match o with
  | ReadCached i =>
      match nth_error (cached_batch s) i with
      | None => Raise IndexError
      | Some v => Ok (s, mkValues ((i, v) :: x_read x) (x_taken x) (x_returned x))
      end
  | Check => if Nat.leb b max then Ok (s, x) else Raise InvalidArgumentError
  | Take i =>
      match nth_error data i with
      | None => Raise IndexError
      | Some d => Ok (s, mkValues (x_read x) ((i, firstn b d) :: x_taken x) (x_returned x))
      end
  | SetSize => Ok (mkVars (v_storage s) b, x)
  | Store i =>
      match assoc (x_taken x) i, nth_error (v_storage s) i with
      | Some cur, Some old =>
          if Nat.eqb (length cur) (length (firstn b old))
          then Ok (mkVars (set_nth (v_storage s) i (cur ++ skipn b old)) (v_size s), x)
          else Raise InvalidArgumentError
      | _, _ => Raise IndexError
      end
  | Return i =>
      match assoc (x_taken x) i with
      | None => Raise IndexError
      | Some cur => Ok (s, mkValues (x_read x) (x_taken x) ((i, cur) :: x_returned x))
      end
  end.

(** A run; the variables keep what happened before an error. *)
Fixpoint exec (max b : nat) (data : list (list row)) (l : list op) (s : vars) (x : values)
  : vars * res values :=
  match l with
  | [] => (s, Ok x)
  | o :: l' =>
      match step max b data o s x with
      | Raise e => (s, Raise e)
      | Ok (s', x') => exec max b data l' s' x'
      end
  end.

(** A history of runs: batch size, data and order of operations of each. *)
Record run := mkRun { r_size : nat; r_data : list (list row); r_ops : list op }.
Definition exec_run (max : nat) (s : vars) (r : run) : vars :=
  fst (exec max (r_size r) (r_data r) (r_ops r) s no_values).
Definition exec_runs (max : nat) (rs : list run) (s : vars) : vars :=
  fold_left (exec_run max) rs s.
End Reader.
Arguments vars : clear implicits.
Arguments values : clear implicits.
Arguments run : clear implicits.

(* ------------------------------------------------------------------------ *)
(** * data_reader_alt.py *)

Inductive aop :=
| AReadCached (i : nat)    (* data_reader_alt.py:101-103: cached_batch[i] *)
| ACheck                   (* 65-69 *)
| AShuffle                 (* 71-72: tf.random.shuffle of the range *)
| AExtract (i : nat)       (* 73 *)
| ASetIndices              (* 119 *)
| ASetSize                 (* 120 *)
| AReturn (i : nat).       (* 122-123 *)

Definition arequires (k : nat) (o p : aop) : Prop :=
  match o with
  | AReadCached _ | ACheck => False
  | AShuffle => p = ACheck
  | AExtract _ => p = AShuffle \/ p = ACheck
  | ASetIndices => p = AShuffle \/ exists j, j < k /\ p = AReadCached j
  | ASetSize => exists j, j < k /\ p = AReadCached j
  | AReturn i => p = AExtract i \/ p = ASetIndices \/ p = ASetSize
  end.
Definition aop_index (o : aop) : option nat :=
  match o with
  | AReadCached i | AExtract i | AReturn i => Some i
  | _ => None
  end.

Section Alt.
Context {row : Type}.

(** The variables (90-99). *)
Record avars := mkAVars { a_indices : list nat; a_size : nat }.
Record avalues := mkAValues {
  y_read : list (nat * list row);
  y_indices : option (list nat);
  y_taken : list (nat * list row);
  y_returned : list (nat * list row) }.
Definition no_avalues : avalues := mkAValues [] None [] [].

(** tf.gather(tensor, indices, axis=0), 34-35: an error for an index out of range. *)
Fixpoint gather (d : list row) (is : list nat) : res (list row) :=
  match is with
  | [] => Ok []
  | i :: is' => match nth_error d i with
                | None => Raise InvalidArgumentError
                | Some x => do xs <- gather d is'; Ok (x :: xs)
                end
  end.

(** One operation of a run with batch size [b]; [shuffled] is what the random operation
    returns.  The data set is the same in all runs. *)
Definition astep (n b : nat) (data : list (list row)) (shuffled : list nat) (o : aop)
    (s : avars) (x : avalues) : res (avars * avalues) :=
  match o with
  | AReadCached i =>
      match nth_error data i with
      | None => Raise IndexError
      | Some d => do v <- gather d (firstn (a_size s) (a_indices s));
                  Ok (s, mkAValues ((i, v) :: y_read x) (y_indices x) (y_taken x) (y_returned x))
      end
  | ACheck => if Nat.leb b n then Ok (s, x) else Raise InvalidArgumentError
  | AShuffle => Ok (s, mkAValues (y_read x) (Some shuffled) (y_taken x) (y_returned x))
  | AExtract i =>
      match nth_error data i, y_indices x with
      | Some d, Some is => do v <- gather d (firstn b is);
                           Ok (s, mkAValues (y_read x) (y_indices x) ((i, v) :: y_taken x) (y_returned x))
      | _, _ => Raise IndexError
      end
  | ASetIndices =>
      match y_indices x with
      | None => Raise IndexError
      | Some is => Ok (mkAVars is (a_size s), x)
      end
  | ASetSize => Ok (mkAVars (a_indices s) b, x)
  | AReturn i =>
      match assoc (y_taken x) i with
      | None => Raise IndexError
      | Some v => Ok (s, mkAValues (y_read x) (y_indices x) (y_taken x) ((i, v) :: y_returned x))
      end
  end.
Fixpoint aexec (n b : nat) (data : list (list row)) (shuffled : list nat) (l : list aop)
    (s : avars) (x : avalues) : avars * res avalues :=
  match l with
  | [] => (s, Ok x)
  | o :: l' =>
      match astep n b data shuffled o s x with
      | Raise e => (s, Raise e)
      | Ok (s', x') => aexec n b data shuffled l' s' x'
      end
  end.

Record arun := mkARun { ar_size : nat; ar_shuffled : list nat; ar_ops : list aop }.
Definition aexec_run (n : nat) (data : list (list row)) (s : avars) (r : arun) : avars :=
  fst (aexec n (ar_size r) data (ar_shuffled r) (ar_ops r) s no_avalues).
Definition aexec_runs (n : nat) (data : list (list row)) (rs : list arun) (s : avars) : avars :=
  fold_left (aexec_run n data) rs s.
End Alt.
Arguments avalues : clear implicits.
