(** One choice of operations, for the examples of Diff/Props.v: arithmetic with exp. *)
From Coq Require Import List Arith Bool Reals Lra Lia.
From Coquelicot Require Import Coquelicot.
From Verif.Base Require Import Py.
From Verif.Curv Require Import Model Spec.
From Verif.Diff Require Import Model Spec GraphProofs DerivProofs.
Import ListNotations.
Open Scope list_scope.
Open Scope R_scope.

(** Formulas in the arguments of an operation, and their derivatives by the rules of the school. *)
Inductive formula := Arg (i : nat) | Num (r : R) | Plus (a b : formula) | Times (a b : formula) | Exp (a : formula).
Fixpoint compute (a : list R) (f : formula) : R :=
  match f with
  | Arg i => nth i a 0
  | Num r => r
  | Plus f g => compute a f + compute a g
  | Times f g => compute a f * compute a g
  | Exp f => exp (compute a f)
  end.
Fixpoint by_arg (k : nat) (f : formula) : formula :=
  match f with
  | Arg i => Num (if Nat.eqb i k then 1 else 0)
  | Num _ => Num 0
  | Plus f g => Plus (by_arg k f) (by_arg k g)
  | Times f g => Plus (Times (by_arg k f) g) (Times f (by_arg k g))
  | Exp f => Times (Exp f) (by_arg k f)
  end.
(** An operation: its number of arguments and its formula. *)
Definition arithmetic : ops :=
  mkOps (nat * formula) fst (fun p a => compute a (snd p)) (fun p k => (fst p, by_arg k (snd p))).

Lemma compute_swap f k l a : compute a (by_arg l (by_arg k f)) = compute a (by_arg k (by_arg l f)).
Proof. induction f as [i|r|f IHf g IHg|f IHf g IHg|f IHf]; cbn; rewrite ?IHf, ?IHg; ring. Qed.

Lemma sum_plus (F H : nat -> R) ks ds :
  rsum (map2 (fun k d => (F k + H k) * d) ks ds) = rsum (map2 (fun k d => F k * d) ks ds) + rsum (map2 (fun k d => H k * d) ks ds).
Proof.
  revert ds. induction ks as [|k ks IH]; intros [|d ds]; try (cbn; ring). rewrite !map2_cons, !rsum_cons, IH. ring.
Qed.
Lemma sum_scal c (F : nat -> R) ks ds :
  rsum (map2 (fun k d => c * F k * d) ks ds) = c * rsum (map2 (fun k d => F k * d) ks ds).
Proof.
  revert ds. induction ks as [|k ks IH]; intros [|d ds]; try (cbn; ring). rewrite !map2_cons, !rsum_cons, IH. ring.
Qed.
Lemma sum_zero ks ds : rsum (map2 (fun (_ : nat) d => 0 * d) ks ds) = 0.
Proof.
  revert ds. induction ks as [|k ks IH]; intros [|d ds]; try reflexivity. rewrite map2_cons, rsum_cons, IH. ring.
Qed.
Lemma sum_pick i s ds : rsum (map2 (fun k d => (if Nat.eqb (s + i) k then 1 else 0) * d) (seq s (length ds)) ds) = nth i ds 0.
Proof.
  revert i s. induction ds as [|d ds IH]; intros i s; [destruct i; reflexivity|].
  cbn [length seq]. rewrite map2_cons, rsum_cons. destruct i as [|i].
  - rewrite Nat.add_0_r, Nat.eqb_refl. cbn [nth].
    assert (Z : forall t, (s < t)%nat -> rsum (map2 (fun k d0 => (if Nat.eqb s k then 1 else 0) * d0) (seq t (length ds)) ds) = 0).
    { clear. induction ds as [|d ds IH]; intros t Ht; [reflexivity|]. cbn [length seq]. rewrite map2_cons, rsum_cons, IH by lia.
      destruct (Nat.eqb_spec s t); [lia|ring]. }
    rewrite Z by lia. ring.
  - replace (s + S i)%nat with (S s + i)%nat by lia. rewrite IH. cbn [nth].
    destruct (Nat.eqb_spec (S s + i) s); [lia|ring].
Qed.
Lemma compute_chain f n a : chain arithmetic (n, f) a.
Proof.
  intros cs ds L E H.
  change (is_derive (fun t : R => compute (map (fun c : R -> R => c t) cs) f) 0
    (rsum (map2 (fun k d => compute a (by_arg k f) * d) (seq 0 (length ds)) ds))).
  induction f as [i|r|f IHf g IHg|f IHf g IHg|f IHf]; cbn [compute by_arg].
  - pose proof (sum_pick i 0 ds) as Ep. cbn [Nat.add] in Ep. rewrite Ep. clear Ep. clear E a. revert i ds L H. induction cs as [|c cs IH]; intros i ds L H; inversion H; subst.
    + destruct i; exact (derive_const 0 0).
    + destruct i as [|i]; cbn [map nth]; [assumption|]. apply IH; [cbn in L; lia|assumption].
  - rewrite sum_zero. apply derive_const.
  - rewrite sum_plus. apply derive_plus; assumption.
  - rewrite (sum_plus (fun k => compute a (by_arg k f) * compute a g) (fun k => compute a f * compute a (by_arg k g))).
    rewrite (sum_scal (compute a f)).
    assert (Ea : map (fun c : R -> R => c 0) cs = a) by exact E.
    apply (is_derive_eq _ _ _ _ (derive_prod _ _ _ _ _ IHf IHg)). cbv beta. rewrite Ea.
    assert (Ec : forall ks ds', rsum (map2 (fun k d => compute a g * compute a (by_arg k f) * d) ks ds')
       = rsum (map2 (fun k d => compute a (by_arg k f) * compute a g * d) ks ds')).
    { clear. induction ks as [|k ks IH]; intros [|d ds]; try reflexivity. rewrite !map2_cons, !rsum_cons, IH. ring. }
    rewrite <- Ec, sum_scal. apply Rplus_eq_compat_r. apply Rmult_comm.
  - rewrite (sum_scal (exp (compute a f)) (fun k => compute a (by_arg k f))).
    rewrite <- E at 1.
    pose proof (is_derive_comp exp (fun t : R => compute (map (fun c => c t) cs) f) 0 _ _ (is_derive_exp _) IHf) as D.
    eapply is_derive_eq; [exact D|]. unfold scal; cbn; unfold mult; cbn. rewrite E. ring.
Qed.
Lemma arithmetic_smooth : smooth arithmetic.
Proof.
  split; [intros [n f] k; reflexivity|]. split.
  - intros [n f] a _. apply compute_chain.
  - intros [n f] k l a _. cbn. apply compute_swap.
Qed.
