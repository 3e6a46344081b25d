(** Tangents are derivatives; second tangents are symmetric. *)
From Coq Require Import List Arith Bool Reals Lra Lia.
From Coquelicot Require Import Coquelicot.
From Verif.Base Require Import Py.
From Verif.Curv Require Import Model Spec.
From Verif.Diff Require Import Model Spec GraphProofs.
Import ListNotations.
Open Scope list_scope.
Open Scope R_scope.

Lemma is_derive_eq (f : R -> R) (x d d' : R) : is_derive f x d -> d = d' -> is_derive f x d'.
Proof. intros H <-. exact H. Qed.
Lemma derive_unique (f : R -> R) (x d d' : R) : is_derive f x d -> is_derive f x d' -> d = d'.
Proof. intros H H'. rewrite <- (is_derive_unique _ _ _ H). apply is_derive_unique, H'. Qed.
Lemma derive_prod (f g : R -> R) (x df dg : R) : is_derive f x df -> is_derive g x dg ->
  is_derive (fun t => f t * g t) x (df * g x + f x * dg).
Proof.
  intros Hf Hg.
  apply (is_derive_eq _ _ (plus (mult df (g x)) (mult (f x) dg))); [|reflexivity].
  exact (@is_derive_mult R_AbsRing f g x df dg Hf Hg Rmult_comm).
Qed.
Lemma derive_plus (f g : R -> R) (x df dg : R) : is_derive f x df -> is_derive g x dg ->
  is_derive (fun t => f t + g t) x (df + dg).
Proof. intros Hf Hg. exact (@is_derive_plus R_AbsRing R_NormedModule f g x df dg Hf Hg). Qed.
Lemma derive_const (a x : R) : is_derive (fun _ : R => a) x 0.
Proof. exact (@is_derive_const R_AbsRing R_NormedModule a x). Qed.
Lemma derive_ext (f g : R -> R) x d : (forall t, f t = g t) -> is_derive f x d -> is_derive g x d.
Proof. intro H. apply is_derive_ext. exact H. Qed.
Lemma derive_sum {A} (l : list A) (f : A -> R -> R) (d : A -> R) x :
  (forall a, In a l -> is_derive (f a) x (d a)) ->
  is_derive (fun t => rsum (map (fun a => f a t) l)) x (rsum (map d l)).
Proof.
  induction l as [|a l IH]; intro H; cbn [map].
  - apply derive_const.
  - apply derive_plus; [apply H; left; reflexivity|apply IH; intros; apply H; right; assumption].
Qed.
Lemma derive_line (a b : R) : is_derive (fun t => a + t * b) 0 b.
Proof.
  apply (is_derive_eq _ _ (0 + (1 * b + 0 * 0))); [|ring].
  apply derive_plus; [apply derive_const|].
  apply (derive_prod (fun t => t) (fun _ => b)); [exact (@is_derive_id R_AbsRing 0)|apply derive_const].
Qed.

Lemma in_combine_r_zip {A B} (k : A) (a : B) l m : In (k, a) (zip l m) -> In a m.
Proof.
  revert m. induction l as [|x l IH]; intros [|y m]; cbn; try tauto.
  intros [[= _ <-]|H]; [left; reflexivity|right; apply (IH _ H)].
Qed.

Section Graphs.
Variable O : ops.
Notation graph := (graph O).
Notation moved := (moved O).
Notation tan := (tan O).
Notation lin := (lin O).

Lemma real_node_ext env x x' nd : (forall a, In a (args_of O nd) -> x a = x' a) ->
  real_node O env x nd = real_node O env x' nd.
Proof.
  intro H. destruct nd as [k|r| |p args|a b|a b]; cbn [real_node args_of] in *; try reflexivity.
  - f_equal. apply map_ext_in, H.
  - rewrite !H by (cbn; auto). reflexivity.
  - rewrite !H by (cbn; auto). reflexivity.
Qed.
Lemma moved_ext env stops base e e' G i : (forall j, e j = e' j) ->
  moved env stops base e G i = moved env stops base e' G i.
Proof.
  intro H. revert i. induction G as [|nd G IH]; intro i; [reflexivity|]. cbn.
  destruct (Nat.eqb i (length G)); [|apply IH]. rewrite H. f_equal. destruct (mem i stops); [reflexivity|].
  apply real_node_ext. intros. apply IH.
Qed.
Lemma moved_base env base base' e G i : moved env [] base e G i = moved env [] base' e G i.
Proof.
  revert i. induction G as [|nd G IH]; intro i; [reflexivity|]. cbn.
  destruct (Nat.eqb i (length G)); [|apply IH]. f_equal. apply real_node_ext. intros. apply IH.
Qed.
Lemma moved_rest env stops base G : (forall i, (i < length G)%nat -> base i = at_rest O env G i) ->
  forall i, moved env stops base no_move G i = at_rest O env G i.
Proof.
  induction G as [|nd G IH]; intros H i; [reflexivity|].
  assert (H' : forall i, (i < length G)%nat -> base i = at_rest O env G i).
  { intros j Hj. rewrite H by (cbn; lia). unfold at_rest. apply moved_stable, Hj. }
  cbn [Spec.moved]. unfold at_rest. cbn [Spec.moved].
  destruct (Nat.eqb_spec i (length G)) as [->|_]; [|apply IH, H'].
  destruct (mem (length G) stops) eqn:E.
  - rewrite H by (cbn; lia). unfold at_rest. rewrite moved_top. cbn [mem existsb]. change (no_move (length G)) with 0. ring.
  - cbn [mem existsb]. f_equal. apply real_node_ext. intros a _. apply IH, H'.
Qed.

(** ** First order *)
Lemma map2_map_r {A B C D} (f : A -> C -> D) (g : B -> C) l m :
  map2 f l (map g m) = map2 (fun a b => f a (g b)) l m.
Proof.
  revert l. induction m as [|b m IH]; intros [|a l]; try reflexivity. cbn [map]. rewrite !map2_cons, IH. reflexivity.
Qed.
Lemma derive_node env (c : nat -> R -> R) (T : nat -> R) nd :
  (forall a, In a (args_of O nd) -> is_derive (c a) 0 (T a)) ->
  (forall p args, nd = Apply p args -> chain O p (map (fun a => c a 0) args)) ->
  is_derive (fun t => real_node O env (fun j => c j t) nd) 0 (lin (fun j => c j 0) nd T).
Proof.
  intros H K. destruct nd as [k|r| |p args|a b|a b]; cbn [real_node GraphProofs.lin args_of] in *.
  1-3: apply derive_const.
  - specialize (K p args eq_refl (map c args) (map T args)). rewrite !map_length in K.
    specialize (K eq_refl). rewrite map_map in K. specialize (K eq_refl).
    assert (F : Forall2 (fun c0 d => is_derive c0 0 d) (map c args) (map T args)).
    { clear K. induction args as [|a args IH]; cbn; constructor; [apply H; left; reflexivity|].
      apply IH. intros; apply H; right; assumption. }
    specialize (K F). rewrite map2_map_r in K.
    eapply derive_ext; [|exact K]. intro t. cbn. rewrite map_map. reflexivity.
  - apply derive_plus; apply H; cbn; auto.
  - apply derive_prod; apply H; cbn; auto.
Qed.

Lemma tan_x_ext stops x x' v G i : (forall j, x j = x' j) -> tan stops x v G i = tan stops x' v G i.
Proof.
  intro H. revert i. induction G as [|nd G IH]; intro i; [reflexivity|]. cbn.
  destruct (Nat.eqb i (length G)); [|apply IH]. f_equal. destruct (mem i stops); [reflexivity|].
  apply lin_ext; [intros; apply H|intros; apply IH].
Qed.

Definition chains (x : nat -> R) (G : graph) : Prop :=
  forall i p args, node_at O G i = Some (Apply p args) -> chain O p (map x args).

Lemma chains_tail x nd G : chains x (nd :: G) -> chains x G.
Proof.
  intros H i p args E. apply (H i p args). cbn. pose proof (node_at_lt O G i _ E).
  destruct (Nat.eqb_spec i (length G)); [lia|exact E].
Qed.
Lemma tan_derive env stops base e v x (G : graph) : wf O G ->
  (forall i, (i < length G)%nat -> moved env stops base e G i = x i) ->
  chains x G ->
  forall i, is_derive (fun t => moved env stops base (fun j => e j + t * v j) G i) 0
                      (tan stops x v G i).
Proof.
  induction G as [|nd G IH]; intros W X K i; [exact (derive_const 0 0)|].
  destruct W as (W1 & W2 & W3).
  assert (X' : forall j, (j < length G)%nat -> moved env stops base e G j = x j).
  { intros j Hj. rewrite <- X by (cbn; lia). symmetry. apply moved_stable, Hj. }
  specialize (IH W3 X' (chains_tail _ _ _ K)). cbn [Spec.moved GraphProofs.tan].
  destruct (Nat.eqb_spec i (length G)) as [->|_]; [|apply IH].
  apply (is_derive_eq _ _ ((if mem (length G) stops then 0 else lin x nd (tan stops x v G)) + v (length G))); [|ring].
  apply derive_plus; [|apply derive_line].
  destruct (mem (length G) stops); [apply derive_const|].
  pose (c := fun j t => moved env stops base (fun j => e j + t * v j) G j).
  assert (C0 : forall j, In j (args_of O nd) -> c j 0 = x j).
  { intros j Hj. unfold c. rewrite <- X' by (apply W1, Hj). apply moved_ext. intro; ring. }
  apply (is_derive_eq _ _ (lin (fun j => c j 0) nd (tan stops x v G))).
  - apply (derive_node env c).
    + intros a Ha. apply IH.
    + intros p args ->. rewrite (map_ext_in _ x) by (exact C0). apply (K (length G)). cbn. rewrite Nat.eqb_refl. reflexivity.
  - apply lin_ext; [exact C0|reflexivity].
Qed.

(** Derivatives of what [after] computes. *)
Lemma after_derive env stops G v y : wf O G -> differentiable_at O env G ->
  derivative (fun e => after O env stops G e y) no_move v (tan stops (at_rest O env G) v G y).
Proof.
  intros W K. unfold derivative, after. apply tan_derive; [exact W| |exact K].
  intros i _. apply moved_rest. reflexivity.
Qed.

(** ** Second order *)
Definition lin2 (x : nat -> R) (nd : node O) (T U S : nat -> R) : R :=
  match nd with
  | Leaf _ | Const _ | Nan => 0
  | Apply p args =>
      rsum (map2 (fun k a =>
        rsum (map2 (fun l b => ev O (dp O (dp O p k) l) (map x args) * U b) (seq 0 (length args)) args) * T a
        + ev O (dp O p k) (map x args) * S a) (seq 0 (length args)) args)
  | Add a b => S a + S b
  | Mul a b => (S a * x b + T a * U b) + (U a * T b + x a * S b)
  end.
Fixpoint sec (x u v : nat -> R) (G : graph) (i : nat) : R :=
  match G with
  | [] => 0
  | nd :: G' => if Nat.eqb i (length G') then lin2 x nd (tan [] x u G') (tan [] x v G') (sec x u v G') else sec x u v G' i
  end.

Lemma rsum_plus {A} (f g : A -> R) l : rsum (map (fun a => f a + g a) l) = rsum (map f l) + rsum (map g l).
Proof. induction l as [|a l IH]; cbn [map]; [cbn; ring|]. rewrite !rsum_cons, IH. ring. Qed.
Lemma rsum_scal {A} c (f : A -> R) l : rsum (map (fun a => c * f a) l) = c * rsum (map f l).
Proof. induction l as [|a l IH]; cbn [map]; [cbn; ring|]. rewrite !rsum_cons, IH. ring. Qed.
Lemma rsum_swap {A B} (F : A -> B -> R) l m :
  rsum (map (fun a => rsum (map (fun b => F a b) m)) l) = rsum (map (fun b => rsum (map (fun a => F a b) l)) m).
Proof.
  induction l as [|a l IH]; cbn [map].
  - cbn. induction m as [|b m IHm]; [reflexivity|]. cbn [map]. rewrite rsum_cons, <- IHm. cbn. ring.
  - rewrite rsum_cons, IH, <- rsum_plus. f_equal.
Qed.

Lemma lin2_sym x nd T U S S' : smooth O -> (forall p args, nd = Apply p args -> length args = arity O p) ->
  (forall a, In a (args_of O nd) -> S a = S' a) ->
  lin2 x nd T U S = lin2 x nd U T S'.
Proof.
  intros (_ & _ & Sy) Har HS. destruct nd as [k|r| |p args|a b|a b]; cbn [lin2 args_of] in *; try reflexivity.
  - specialize (Har p args eq_refl).
    set (D := fun k l => ev O (dp O (dp O p k) l) (map x args)).
    set (E := fun k => ev O (dp O p k) (map x args)).
    assert (HD : forall k l, D k l = D l k) by (intros; apply Sy; rewrite map_length; exact Har).
    unfold map2 in *. set (L := zip (seq 0 (length args)) args).
    assert (HL : forall q, In q L -> In (snd q) args).
    { unfold L. clear. generalize (seq 0 (length args)) as ks. intro ks. revert ks. induction args as [|a l IH]; intros [|k ks] q; cbn; try tauto.
      intros [<-|H]; [left; reflexivity|right; apply (IH ks q H)]. }
    change (rsum (map (fun q => rsum (map (fun r => D (fst q) (fst r) * U (snd r)) L) * T (snd q) + E (fst q) * S (snd q)) L)
          = rsum (map (fun q => rsum (map (fun r => D (fst q) (fst r) * T (snd r)) L) * U (snd q) + E (fst q) * S' (snd q)) L)).
    clearbody L D E. rewrite !rsum_plus. f_equal.
    + rewrite (map_ext _ (fun q => rsum (map (fun r => D (fst q) (fst r) * U (snd r) * T (snd q)) L))).
      2: { intro q. rewrite Rmult_comm, <- rsum_scal. f_equal. apply map_ext. intro r. ring. }
      rewrite rsum_swap. f_equal. apply map_ext. intro q.
      rewrite Rmult_comm, <- rsum_scal. f_equal. apply map_ext. intro r. rewrite HD. ring.
    + f_equal. apply map_ext_in. intros q Hq. rewrite HS by (apply HL, Hq). reflexivity.
  - rewrite !HS by (cbn; auto). reflexivity.
  - rewrite !HS by (cbn; auto). ring.
Qed.
Lemma sec_sym x u v G i : smooth O -> wf O G -> sec x u v G i = sec x v u G i.
Proof.
  intro S. revert i. induction G as [|nd G IH]; intros i W; [reflexivity|]. destruct W as (W1 & W2 & W3). cbn.
  destruct (Nat.eqb i (length G)); [|apply IH, W3].
  apply lin2_sym; [exact S|exact W2|]. intros a _. apply IH, W3.
Qed.

Lemma derive_lin (x T : nat -> R -> R) (U S : nat -> R) nd :
  smooth O -> (forall p args, nd = Apply p args -> length args = arity O p) ->
  (forall a, In a (args_of O nd) -> is_derive (x a) 0 (U a)) ->
  (forall a, In a (args_of O nd) -> is_derive (T a) 0 (S a)) ->
  is_derive (fun t => lin (fun j => x j t) nd (fun j => T j t)) 0
            (lin2 (fun j => x j 0) nd (fun j => T j 0) U S).
Proof.
  intros (Ar & Ch & _) Har Hx HT. destruct nd as [k|r| |p args|a b|a b]; cbn [GraphProofs.lin lin2 args_of] in *.
  1-3: apply derive_const.
  - specialize (Har p args eq_refl). unfold map2 at 1 2.
    apply (derive_sum (zip (seq 0 (length args)) args)
      (fun q t => ev O (dp O p (fst q)) (map (fun j => x j t) args) * T (snd q) t)).
    intros (k, a) Hq. cbn [fst snd].
    apply (derive_prod (fun t => ev O (dp O p k) (map (fun j => x j t) args)) (T a)).
    + pose proof (derive_node (fun _ => 0) x U (Apply (dp O p k) args)) as D. cbn [real_node GraphProofs.lin args_of] in D.
      apply D; [exact Hx|]. intros p' args' [= <- <-]. apply Ch. rewrite map_length, Ar. exact Har.
    + apply HT. apply (in_combine_r_zip k a) in Hq. exact Hq.
  - apply derive_plus; apply HT; cbn; auto.
  - apply derive_plus; apply derive_prod; first [apply HT | apply Hx]; cbn; auto.
Qed.

Lemma smooth_chains x G : smooth O -> wf O G -> chains x G.
Proof.
  intros (_ & Ch & _) W i p args E. apply Ch. rewrite map_length. apply (wf_at O G i _ W E). reflexivity.
Qed.
Lemma sec_derive env base e u v x G : smooth O -> wf O G ->
  (forall i, (i < length G)%nat -> moved env [] base e G i = x i) ->
  forall i, is_derive (fun t => tan [] (moved env [] base (fun j => e j + t * v j) G) u G i) 0 (sec x u v G i).
Proof.
  intro Sm. induction G as [|nd G IH]; intros W X i; [exact (derive_const 0 0)|].
  pose proof W as (W1 & W2 & W3).
  assert (X' : forall j, (j < length G)%nat -> moved env [] base e G j = x j).
  { intros j Hj. rewrite <- X by (cbn; lia). symmetry. apply moved_stable, Hj. }
  specialize (IH W3 X').
  assert (Ev : forall t j, tan [] (moved env [] base (fun j => e j + t * v j) (nd :: G)) u G j
                         = tan [] (moved env [] base (fun j => e j + t * v j) G) u G j).
  { intros t j. apply tan_values; [exact W3|]. intros k Hk. apply moved_stable, Hk. }
  cbn [GraphProofs.tan sec]. destruct (Nat.eqb_spec i (length G)) as [->|_].
  - cbn [mem existsb].
    pose (xc := fun j t => moved env [] base (fun j => e j + t * v j) G j).
    pose (Tc := fun j t => tan [] (moved env [] base (fun j => e j + t * v j) G) u G j).
    apply (derive_ext (fun t => u (length G) + lin (fun j => xc j t) nd (fun j => Tc j t))).
    { intro t. f_equal. apply lin_ext.
      - intros a Ha. unfold xc. symmetry. apply moved_stable, W1, Ha.
      - intros a Ha. unfold Tc. symmetry. apply Ev. }
    assert (C0 : forall j, (j < length G)%nat -> xc j 0 = x j).
    { intros j Hj. unfold xc. rewrite <- X' by exact Hj. apply moved_ext. intro; ring. }
    assert (T0 : forall j, Tc j 0 = tan [] x u G j).
    { intro j. unfold Tc. apply tan_values; [exact W3|exact C0]. }
    apply (is_derive_eq _ _ (0 + lin2 (fun j => xc j 0) nd (fun j => Tc j 0) (tan [] x v G) (sec x u v G))).
    + apply derive_plus; [apply derive_const|].
      apply derive_lin; [exact Sm|exact W2| |intros a _; apply IH].
      intros a _. apply tan_derive; [exact W3|exact X'|apply smooth_chains; assumption].
    + rewrite Rplus_0_l. destruct nd as [k|r| |p args|a b|a b]; cbn [lin2 args_of] in *; try reflexivity.
      * assert (E : map (fun j => xc j 0) args = map x args) by (apply map_ext_in; intros j Hj; apply C0, W1, Hj).
        rewrite E. f_equal. apply map2_ext. intros k a Ha. rewrite T0. reflexivity.
      * rewrite !C0, !T0 by (apply W1; cbn; auto). reflexivity.
  - apply (derive_ext (fun t => tan [] (moved env [] base (fun j => e j + t * v j) G) u G i)); [|apply IH].
    intro t. symmetry. apply Ev.
Qed.
End Graphs.
