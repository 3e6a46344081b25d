From Coq Require Import String List Arith ZArith Bool Reals Lra Lia.
From Verif.Base Require Import Py.
From Verif.Train Require Import Model Spec CtorProofs.
From Verif.Examples Require Import Model Spec.
Import ListNotations.
Open Scope list_scope.
Open Scope nat_scope.

(* ------------------------------------------------------------------------ *)
(** * Flags *)
Lemma flags_accepted f : documented f -> exists o, make_train_op f = Ok o /\
  match o with
  | KfacArgs a d => f_optimizer f = "kfac"%string /\ legal a /\ legal_estimator a /\
      a_adapt_damping a = f_adapt_damping f /\
      d = (if f_adapt_damping f then f_initial_damping f else f_damping f) /\
      (a_learning_rate a = if String.eqb (f_lrmu f) "off" then Some (f_learning_rate f) else None) /\
      (a_momentum a = if String.eqb (f_lrmu f) "on" then None else Some (f_momentum f))
  | AdamArgs lr b1 e => f_optimizer f = "adam"%string /\
      lr = f_learning_rate f /\ b1 = f_momentum f /\ e = f_damping f
  end.
Proof.
  intros [O L]. unfold make_train_op. destruct O as [->| ->]; cbn [String.eqb Ascii.eqb Bool.eqb andb].
  - assert (LE : forall t m r l b, legal_estimator (mkArgs t m None l r true true b None false true)).
    { intros. split; [left; reflexivity|intros X; discriminate X]. }
    destruct L as [->|[->| ->]]; cbn [String.eqb Ascii.eqb Bool.eqb andb bind]; eexists;
      (split; [reflexivity|]); cbn [a_adapt_damping a_learning_rate a_momentum];
      (split; [reflexivity|]); (split; [|split; [apply LE|auto]]).
    + exists Qmodel. cbn. split; [tauto|]. split; [congruence|]. split; [reflexivity|].
      split; [tauto|]. split; [congruence|]. reflexivity.
    + exists QmodelFixedMu. cbn. split; [tauto|]. split; [congruence|]. split; [discriminate|].
      split; [tauto|]. split; [congruence|]. reflexivity.
    + exists Adam. cbn. split; [tauto|]. split; [congruence|]. split; [discriminate|].
      split; [split; [discriminate|intros [X|X]; discriminate X]|]. split; [congruence|]. reflexivity.
  - eexists. split; [reflexivity|]. cbn. auto.
Qed.

Lemma flags_rejected f : ~ documented f ->
  f_optimizer f = "adam"%string \/ make_train_op f = Raise UnboundLocalError.
Proof.
  intros H. unfold make_train_op.
  destruct (String.eqb_spec (f_optimizer f) "kfac") as [K|K].
  - right. destruct (String.eqb_spec (f_lrmu f) "on"); [exfalso; apply H; split; auto|].
    destruct (String.eqb_spec (f_lrmu f) "only_lr"); [exfalso; apply H; split; auto|].
    destruct (String.eqb_spec (f_lrmu f) "off"); [exfalso; apply H; split; auto|]. reflexivity.
  - destruct (String.eqb_spec (f_optimizer f) "adam") as [A|A]; [left; exact A|right; reflexivity].
Qed.

(* ------------------------------------------------------------------------ *)
(** * Evaluation *)
Section Eval.
Variable V : Type.
Variables (data_loss data_error reg : list V -> R).
Notation run := (eval_run V data_loss data_error reg).

Lemma group_assign_all (d s : list V) : length d = length s -> group_assign V d s = s.
Proof.
  revert s. induction d as [|x d IH]; intros [|y s] L; try discriminate L; [reflexivity|].
  cbn. f_equal. apply IH. injection L as L. exact L.
Qed.

Lemma eval_values k order vars train avg : k <> 0 -> In order eval_orders ->
  length vars = length train -> length avg = length train ->
  exists r, (r = reg vars \/ r = reg train) /\
    run k order vars train avg
    = Ok ((data_loss train + r)%R, data_error train, (data_loss avg + r)%R, data_error avg, avg).
Proof.
  intros K O L1 L2. unfold eval_run. apply Nat.eqb_neq in K. rewrite K.
  destruct O as [<-|[<-|[<-|[]]]]; cbn [fold_left run_eop m_vars m_reg m_loss m_err m_lossa m_erra];
    rewrite (group_assign_all vars train) by exact L1; rewrite (group_assign_all train avg) by (symmetry; exact L2);
    eexists; (split; [|reflexivity]); auto.
Qed.
End Eval.

(* ------------------------------------------------------------------------ *)
(** * Towers *)
Section Towers.
Variable X : Type.
Implicit Types l : list X.

Lemma batches_props fuel b l : 0 < b -> length l <= fuel ->
  concat (batches_from X fuel b l) = l /\
  (forall p, In p (batches_from X fuel b l) -> 0 < length p <= b) /\
  (forall t, Nat.divide t b ->
     (Nat.divide t (length l) <-> forall p, In p (batches_from X fuel b l) -> Nat.divide t (length p))).
Proof.
  intros B. revert l. induction fuel as [|fuel IH]; intros l F.
  - destruct l; [|cbn in F; lia]. cbn. split; [reflexivity|]. split; [intros p []|].
    intros t _. split; [intros _ p []|intros _; apply Nat.divide_0_r].
  - destruct l as [|x l]; [cbn; split; [reflexivity|]; split; [intros p []|];
      intros t _; split; [intros _ p []|intros _; apply Nat.divide_0_r]|].
    assert (E : batches_from X (S fuel) b (x :: l)
              = firstn b (x :: l) :: batches_from X fuel b (skipn b (x :: l))) by reflexivity.
    rewrite E. set (l0 := x :: l) in *.
    assert (S1 : length (skipn b l0) <= fuel).
    { rewrite skipn_length. cbn [length l0] in *. lia. }
    destruct (IH (skipn b l0) S1) as [I1 [I2 I3]].
    assert (FL : length (firstn b l0) = Nat.min b (length l0)) by apply firstn_length.
    split; [cbn [concat]; rewrite I1; apply firstn_skipn|]. split.
    + intros p [<-|P]; [rewrite FL; cbn [length l0]; lia|apply I2; exact P].
    + intros t D. specialize (I3 t D). rewrite skipn_length in I3. split.
      * intros DL p [<-|P].
        { rewrite FL. destruct (Nat.min_dec b (length l0)) as [-> | ->]; assumption. }
        { apply I3; [|exact P]. destruct (Nat.le_gt_cases b (length l0)) as [Le|Gt].
          - apply Nat.divide_sub_r; assumption.
          - replace (length l0 - b) with 0 by lia. apply Nat.divide_0_r. }
      * intros H. assert (D2 : Nat.divide t (length l0 - b)) by (apply I3; intros p P; apply H; right; exact P).
        pose proof (H _ (or_introl eq_refl)) as D1. rewrite FL in D1.
        replace (length l0) with (Nat.min b (length l0) + (length l0 - b)) by lia.
        apply Nat.divide_add_r; assumption.
Qed.

Lemma skipn_add a b l : skipn a (skipn b l) = skipn (b + a) l.
Proof.
  revert l. induction b as [|b IH]; intros l; [reflexivity|].
  destruct l as [|x l]; [destruct a; reflexivity|]. cbn. apply IH.
Qed.

Lemma chunk_concat k n l : length l = k * n ->
  concat (map (fun i => firstn k (skipn (i * k) l)) (seq 0 n)) = l.
Proof.
  revert l. induction n as [|n IH]; intros l L.
  - destruct l; [reflexivity|cbn in L; lia].
  - cbn [seq map concat]. rewrite Nat.mul_0_l. cbn [skipn].
    rewrite <- seq_shift, map_map.
    rewrite (map_ext _ (fun i => firstn k (skipn (i * k) (skipn k l)))).
    + rewrite IH; [apply firstn_skipn|]. rewrite skipn_length, L. nia.
    + intros i. rewrite skipn_add. reflexivity.
Qed.

Lemma split_ok t l : 0 < t -> Nat.divide t (length l) -> exists parts,
  tf_split X t l = Ok parts /\ split_evenly t l parts /\ forall p, In p parts -> length p * t = length l.
Proof.
  intros T D. unfold tf_split. destruct (Nat.eqb_spec t 0); [lia|].
  destruct D as [k D]. rewrite D, Nat.mod_mul by lia. cbn [Nat.eqb]. rewrite Nat.div_mul by lia.
  eexists. split; [reflexivity|].
  assert (Len : forall p, In p (map (fun i => firstn k (skipn (i * k) l)) (seq 0 t)) -> length p = k).
  { intros p P. apply in_map_iff in P. destruct P as [i [<- I]]. apply in_seq in I.
    rewrite firstn_length, skipn_length, D. nia. }
  split; [|intros p P; rewrite (Len p P); reflexivity].
  split; [rewrite map_length, seq_length; reflexivity|]. split; [apply chunk_concat; exact D|].
  intros p q P Q. rewrite (Len p P), (Len q Q). reflexivity.
Qed.

Lemma split_bad t l : 0 < t -> ~ Nat.divide t (length l) -> tf_split X t l = Raise InvalidArgumentError.
Proof.
  intros T D. unfold tf_split. destruct (Nat.eqb_spec t 0); [lia|].
  destruct (Nat.eqb_spec (length l mod t) 0) as [E|E]; [|reflexivity].
  exfalso. apply D. apply Nat.mod_divide; [lia|exact E].
Qed.

Open Scope R_scope.
Lemma mean_parts (loss : X -> R) (parts : list (list X)) k : (0 < k)%nat -> parts <> [] ->
  (forall p, In p parts -> length p = k) ->
  mean (map (fun p => mean (map loss p)) parts) = mean (map loss (concat parts)).
Proof.
  intros K NE H. unfold mean. rewrite !map_length.
  assert (L : length (concat parts) = (length parts * k)%nat).
  { clear NE. induction parts as [|p ps IH]; [reflexivity|]. cbn. rewrite app_length, (H p (or_introl eq_refl)), IH; [lia|].
    intros q Q. apply H. right. exact Q. }
  rewrite L, mult_INR.
  assert (Sm : fold_right Rplus 0 (map (fun p => fold_right Rplus 0 (map loss p) / INR (length (map loss p))) parts)
             = fold_right Rplus 0 (map loss (concat parts)) / INR k).
  { clear NE L. induction parts as [|p ps IH]; cbn [map fold_right concat]; [unfold Rdiv; ring|].
    rewrite IH by (intros q Q; apply H; right; exact Q). rewrite map_length, (H p (or_introl eq_refl)), map_app.
    assert (A : forall a b, fold_right Rplus 0 (a ++ b) = fold_right Rplus 0 a + fold_right Rplus 0 b).
    { induction a as [|x a IHa]; intros b; cbn; [ring|]. rewrite IHa. ring. }
    rewrite A. unfold Rdiv. ring. }
  rewrite Sm. assert (0 < INR k) by (apply lt_0_INR; exact K).
  assert (0 < INR (length parts)).
  { apply lt_0_INR. destruct parts; [contradiction|cbn; lia]. }
  field. split; lra.
Qed.

Lemma tower_loss_mean (loss : X -> R) t l : (0 < t)%nat -> (0 < length l)%nat -> Nat.divide t (length l) ->
  tower_loss X loss t l = Ok (mean (map loss l)).
Proof.
  intros T L D. destruct (split_ok t l T D) as [parts [E [[P1 [P2 _]] P3]]].
  unfold tower_loss. rewrite E. cbn [bind]. f_equal.
  destruct parts as [|p ps]; [cbn in P1; lia|].
  rewrite (mean_parts loss (p :: ps) (length p)).
  - rewrite P2. reflexivity.
  - pose proof (P3 p (or_introl eq_refl)). nia.
  - discriminate.
  - intros q Q. pose proof (P3 p (or_introl eq_refl)). pose proof (P3 q Q). nia.
Qed.

Lemma sequence_ok (f : list X -> res R) g bs : (forall b, In b bs -> f b = Ok (g b)) ->
  sequence_steps X f bs = Ok (map g bs).
Proof.
  induction bs as [|b bs IH]; intros H; [reflexivity|]. cbn [sequence_steps map].
  rewrite (H b (or_introl eq_refl)). cbn [bind]. rewrite IH by (intros c C; apply H; right; exact C). reflexivity.
Qed.
Lemma sequence_bad (f : list X -> res R) e bs b : In b bs -> f b = Raise e ->
  (forall c, In c bs -> f c = Raise e \/ exists r, f c = Ok r) -> sequence_steps X f bs = Raise e.
Proof.
  induction bs as [|c bs IH]; intros I B H; [destruct I|]. cbn [sequence_steps].
  destruct (H c (or_introl eq_refl)) as [->|[r E]]; [reflexivity|]. rewrite E. cbn [bind].
  destruct I as [->|I]; [congruence|]. rewrite IH; auto. intros d D. apply H. right. exact D.
Qed.

Lemma multitower (loss : X -> R) tb nd ne shuffles : (0 < tb)%nat -> (0 < nd)%nat ->
  (Nat.divide nd (length (epochs X ne shuffles)) ->
   exists bs, concat bs = epochs X ne shuffles /\
     (forall b, In b bs -> (0 < length b <= tb * nd)%nat) /\
     train_multitower X loss tb nd ne shuffles = Ok (map (fun b => mean (map loss b)) bs)) /\
  (~ Nat.divide nd (length (epochs X ne shuffles)) ->
   train_multitower X loss tb nd ne shuffles = Raise InvalidArgumentError).
Proof.
  intros TB ND. unfold train_multitower, num_towers_of.
  destruct (Nat.eqb_spec nd 0); [lia|].
  assert (B0 : (0 < tb * nd)%nat) by nia.
  destruct (batches_props _ (tb * nd) (epochs X ne shuffles) B0 (le_n _)) as [P1 [P2 P3]].
  assert (D0 : Nat.divide nd (tb * nd)) by (exists tb; reflexivity).
  specialize (P3 nd D0). fold (batches X (tb * nd) (epochs X ne shuffles)) in *.
  split; intros D.
  - exists (batches X (tb * nd) (epochs X ne shuffles)). split; [exact P1|]. split; [exact P2|].
    apply sequence_ok. intros b Hb. apply tower_loss_mean; [exact ND|apply P2; exact Hb|].
    apply P3; assumption.
  - set (bs := batches X (tb * nd) (epochs X ne shuffles)) in *.
    assert (Dec : forall b : list X, Nat.divide nd (length b) \/ ~ Nat.divide nd (length b)).
    { intros b. destruct (Nat.eq_dec (length b mod nd) 0) as [E|E].
      - left. apply Nat.mod_divide; [lia|exact E].
      - right. intros Q. apply E. apply Nat.mod_divide; [lia|exact Q]. }
    assert (Ex : exists b, In b bs /\ ~ Nat.divide nd (length b)).
    { assert (NA : ~ forall b, In b bs -> Nat.divide nd (length b)) by (intros H; apply D, P3; exact H).
      clear -NA Dec. induction bs as [|b bs IH]; [exfalso; apply NA; intros b []|].
      destruct (Dec b) as [Db|Db]; [|exists b; split; [left; reflexivity|exact Db]].
      destruct IH as [c [C1 C2]]; [|exists c; split; [right; exact C1|exact C2]].
      intros H. apply NA. intros c [<-|C]; [exact Db|apply H; exact C]. }
    destruct Ex as [b [I Nd]]. apply (sequence_bad _ _ _ b I).
    + unfold tower_loss. rewrite split_bad by assumption. reflexivity.
    + intros c C. destruct (Dec c) as [Dc|Dc].
      * right. exists (mean (map loss c)). apply tower_loss_mean; [exact ND|apply P2; exact C|exact Dc].
      * left. unfold tower_loss. rewrite split_bad by assumption. reflexivity.
Qed.
End Towers.
