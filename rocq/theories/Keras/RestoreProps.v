(** C108: the state of a Keras optimizer after saving and loading. *)
From Coq Require Import String QArith List Arith Bool Permutation.
From Verif.Base Require Import Py.
From Verif.Names Require Import Model Spec Props.
From Verif.Keras Require Import Restore RestoreProofs.
Import ListNotations.
Open Scope string_scope.
Open Scope list_scope.

(** If no factor has more than one registration of a kind, a process that builds the same graph, with
    the registrations in whatever order, gets back what every variable held. *)
Theorem C108_state_restored_partial : forall r w w' k scope frs frs' st vars after content,
  same_graph r w w' ->
  (forall f g, In (f, g) frs ->
     length (r_matpower g) <= 1 /\ length (r_cholesky g) <= 1 /\ length (r_cholinv g) <= 1 /\
     length (r_opt1 g) <= 1 /\ length (r_opt2 g) <= 1)%nat ->
  Forall2 (fun x y => re_factor r (fst x) = fst y /\ regs_reordered (re_regs r (snd x)) (snd y)) frs frs' ->
  make_vars k w scope frs st = Ok vars ->
  exists vars', make_vars k w' scope frs' st = Ok vars' /\
    set_weights (vars' ++ after) (get_weights content (vars ++ after)) =
      Ok (map (fun v => (v_name v, content (v_name v))) (vars' ++ after)).
Proof.
  intros r w w' k scope frs frs' st vars after content S O F H.
  destruct (restored r w w' k scope frs frs' st vars after content S O F H) as [A B]. eauto.
Qed.
Print Assumptions C108_state_restored_partial.

(** The property as stated fails: two dampings of one factor are kept in a set, whose order differs
    between processes; then the state is accepted, and two inverses are exchanged. *)
Definition C108_saved : list (factor * regs) :=
  [(FCKronecker [[OTensor 0]] true, mkRegs [((- 1)%Q, C90_id "in"); ((- 1)%Q, C90_id "in2")] [] [] [] [])].
Definition C108_other_process : list (factor * regs) :=
  [(FCKronecker [[OTensor 0]] true, mkRegs [((- 1)%Q, C90_id "in2"); ((- 1)%Q, C90_id "in")] [] [] [] [])].
Theorem C108_state_restored_refuted : exists vars vars' held n m,
  reordered C108_saved C108_other_process /\
  make_vars imported ex_world "kfac" C108_saved [] = Ok vars /\
  make_vars imported ex_world "kfac" C108_other_process [] = Ok vars' /\
  n <> m /\ In n (names vars) /\ In m (names vars) /\
  forall content, set_weights vars' (get_weights content vars) = Ok (held content) /\
    In (n, content m) (held content) /\ In (m, content n) (held content).
Proof.
  eexists. eexists. eexists (fun content => _).
  eexists. eexists. split.
  { exists C108_saved. split; [apply Permutation_refl|]. constructor; [|constructor]. split; [reflexivity|]. split; [apply perm_swap|]. repeat split; apply Permutation_refl. }
  split; [vm_compute; reflexivity|]. split; [vm_compute; reflexivity|].
  split; [|split; [do 2 right; left; reflexivity|split; [do 3 right; left; reflexivity|]]].
  - discriminate.
  - intro content. split; [reflexivity|]. split; [do 3 right; left; reflexivity|do 2 right; left; reflexivity].
Qed.
Print Assumptions C108_state_restored_refuted.

Example C108_example : exists vars,
  make_vars imported ex_world "kfac"
    [(FCKronecker [[OTensor 0]] true, mkRegs [((- 1)%Q, C90_id "in")] [C90_id "in"] [] [] []);
     (ConvInputSUA [OTensor 5] [3; 3; 2; 4] false, mkRegs [((- 1)%Q, C90_id "conv")] [] [] [] [])] [] = Ok vars /\
  length vars = 12.
Proof. eexists. split; vm_compute; reflexivity. Qed.
