(** Saving and restoring the state of the optimizer. *)
From Coq Require Import String List Arith Bool Permutation.
From Verif.Base Require Import Py.
From Verif.Names Require Import Model Spec RelabelProofs.
From Verif.Keras Require Import Restore.
Import ListNotations.
Open Scope list_scope.

Lemma nats_eqb_refl l : nats_eqb l l = true.
Proof. induction l as [|x l IH]; cbn; [reflexivity|]. rewrite Nat.eqb_refl. exact IH. Qed.

Lemma restored_in_place content vars :
  set_weights vars (get_weights content vars) = Ok (map (fun v => (v_name v, content (v_name v))) vars).
Proof. induction vars as [|v vars IH]; [reflexivity|]. cbn. rewrite nats_eqb_refl. fold (get_weights content vars). rewrite IH. reflexivity. Qed.

Lemma short_perm {A} (l m : list A) : length l <= 1 -> Permutation l m -> l = m.
Proof.
  intros L P. destruct l as [|a [|b l]]; [|apply Permutation_length_1_inv in P; now subst|cbn in L; exfalso; inversion L; inversion H0].
  now apply Permutation_nil in P.
Qed.

Definition one_each (r : regs) : Prop :=
  length (r_matpower r) <= 1 /\ length (r_cholesky r) <= 1 /\ length (r_cholinv r) <= 1 /\
  length (r_opt1 r) <= 1 /\ length (r_opt2 r) <= 1.

Lemma same_order r r' : one_each r -> regs_reordered r r' -> r = r'.
Proof.
  destruct r as [a b c d e], r' as [a' b' c' d' e']. cbn. intros (A & B & C & D & E) (A' & B' & C' & D' & E'). cbn in *.
  rewrite (short_perm _ _ A A'), (short_perm _ _ B B'), (short_perm _ _ C C'), (short_perm _ _ D D'), (short_perm _ _ E E').
  reflexivity.
Qed.

Lemma restored r w w' k scope frs frs' st vars after content :
  same_graph r w w' -> (forall f g, In (f, g) frs -> one_each g) ->
  Forall2 (fun x y => re_factor r (fst x) = fst y /\ regs_reordered (re_regs r (snd x)) (snd y)) frs frs' ->
  make_vars k w scope frs st = Ok vars ->
  make_vars k w' scope frs' st = Ok vars /\
  set_weights (vars ++ after) (get_weights content (vars ++ after)) =
    Ok (map (fun v => (v_name v, content (v_name v))) (vars ++ after)).
Proof.
  intros S O F H. split; [|apply restored_in_place].
  assert (E : frs' = map (fun fr => (re_factor r (fst fr), re_regs r (snd fr))) frs).
  { clear H. induction F as [|[f g] [f' g'] frs frs' [A B] F IH]; [reflexivity|]. cbn [map fst snd] in *. f_equal.
    - f_equal; [now symmetry|]. symmetry. apply same_order; [|exact B].
      destruct (O f g (or_introl eq_refl)) as (a & b & c & d & e). unfold one_each, re_regs. cbn. rewrite !map_length. auto.
    - apply IH. intros f0 g0 H0. apply (O f0 g0). now right. }
  rewrite E. exact (relabelled r w w' S k scope frs st vars H).
Qed.
