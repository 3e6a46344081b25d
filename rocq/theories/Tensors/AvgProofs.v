(** Proofs about moving averages, accumulators, convolution locations and
    depthwise filters. *)
From Coq Require Import String Ascii List Arith ZArith Lia Bool Reals Lra.
From Verif.Base Require Import Py ListFacts.
From Verif.Tensors Require Import Model Spec.
Import ListNotations.
Open Scope list_scope.

(* ---------------------------------------------------------------- *)
(** * moving averages *)
Section Mav.
Context {I : Type}.
Local Notation hist := (list ((I -> R) * R * R)).
Definition adds (h : hist) : list (mav_op I) := map (fun e => MAdd (fst (fst e)) (snd (fst e)) (snd e)) h.

Lemma mav_run_adds (h : hist) (m : mav I) i :
  m_var (mav_run m (adds h)) i
    = (later_decays h * m_var m i + weighted_sum (fun v => v i) h)%R /\
  m_weight (mav_run m (adds h)) = (later_decays h * m_weight m + total_weight h)%R /\
  m_norm (mav_run m (adds h)) = m_norm m.
Proof.
  revert m; induction h as [|[[v d] w] h IH]; intros m.
  - cbn. repeat split; lra.
  - cbn [adds map]. change (map _ h) with (adds h). unfold mav_run in *. cbn [fold_left].
    destruct (IH (mav_step m (MAdd v d w))) as (H1 & H2 & H3).
    cbn [fst snd mav_step m_var m_weight m_norm] in *.
    rewrite H1, H2, H3. cbn [later_decays total_weight weighted_sum].
    repeat split; ring.
Qed.

Lemma mav_unnormalized (h : hist) (init : I -> R) i :
  mav_value (mav_run (mav_init init false) (adds h)) i
  = Some (later_decays h * init i + weighted_sum (fun v => v i) h)%R.
Proof.
  destruct (mav_run_adds h (mav_init init false) i) as (H1 & _ & H3).
  unfold mav_value. rewrite H3. cbn [m_norm mav_init]. rewrite H1. reflexivity.
Qed.

Lemma mav_from_zero (m : mav I) (h : hist) i :
  m_var m i = 0%R -> m_weight m = 0%R ->
  mav_value (mav_run m (adds h)) i =
  if m_norm m
  then (if Req_EM_T (total_weight h) 0 then None
        else Some (weighted_sum (fun v => v i) h / total_weight h)%R)
  else Some (weighted_sum (fun v => v i) h).
Proof.
  intros Hv Hw. unfold mav_value.
  destruct (mav_run_adds h m i) as (H1 & H2 & H3). rewrite H1, H2, H3, Hv, Hw.
  rewrite !Rmult_0_r, !Rplus_0_l. reflexivity.
Qed.

Lemma mav_fresh_value (h : hist) (init : I -> R) i :
  init i = 0%R -> total_weight h <> 0%R ->
  mav_value (mav_run (mav_init init true) (adds h)) i
  = Some (weighted_sum (fun v => v i) h / total_weight h)%R.
Proof.
  intros H0 Hw. rewrite mav_from_zero by (cbn; auto). cbn [mav_init m_norm].
  destruct (Req_EM_T (total_weight h) 0); [contradiction|reflexivity].
Qed.

Lemma mav_reset_irrelevant (m1 m2 : mav I) pre1 pre2 (h : hist) i :
  m_norm m1 = m_norm m2 ->
  mav_value (mav_run m1 (pre1 ++ MReset :: adds h)) i =
  mav_value (mav_run m2 (pre2 ++ MReset :: adds h)) i.
Proof.
  intros Hn.
  assert (N : forall ops m, m_norm (@mav_run I m ops) = m_norm m).
  { induction ops as [|o ops IH]; intros m; auto. unfold mav_run in *; cbn [fold_left].
    rewrite IH. destruct o; reflexivity. }
  assert (G : forall m pre, mav_value (mav_run m (pre ++ MReset :: adds h)) i =
     mav_value (mav_run (mkMav (fun _ => 0%R) 0%R (m_norm m)) (adds h)) i).
  { intros m pre. unfold mav_run. rewrite fold_left_app. cbn [fold_left mav_step].
    fold (mav_run m pre). rewrite N. reflexivity. }
  rewrite !G, Hn. reflexivity.
Qed.

Lemma weighted_sum_const (h : hist) (f : (I -> R) -> R) c :
  (forall e, In e h -> f (fst (fst e)) = c) -> weighted_sum f h = (c * total_weight h)%R.
Proof.
  induction h as [|[[v d] w] h IH]; intros H; cbn [weighted_sum total_weight]; [lra|].
  pose proof (H (v, d, w) (or_introl eq_refl)) as Hv; cbn in Hv. rewrite Hv. rewrite IH by (intros; apply H; simpl; auto). ring.
Qed.

Lemma mav_constant (h : hist) (init : I -> R) i c :
  init i = 0%R -> total_weight h <> 0%R ->
  (forall e, In e h -> fst (fst e) i = c) ->
  mav_value (mav_run (mav_init init true) (adds h)) i = Some c.
Proof.
  intros H0 Hw Hc. rewrite mav_fresh_value by auto.
  rewrite (weighted_sum_const h (fun v => v i) c Hc). f_equal. field. auto.
Qed.

Lemma later_decays_nonneg (h : hist) :
  (forall e, In e h -> 0 <= snd (fst e))%R -> (0 <= later_decays h)%R.
Proof.
  induction h as [|[[v d] w] h IH]; intros H; cbn [later_decays]; [lra|].
  apply Rmult_le_pos; [apply (H (v,d,w)); simpl; auto|apply IH; intros; apply H; simpl; auto].
Qed.

Lemma weighted_sum_bounds (h : hist) (f : (I -> R) -> R) lo hi :
  (forall e, In e h -> 0 <= snd (fst e) /\ 0 <= snd e /\ lo <= f (fst (fst e)) <= hi)%R ->
  (lo * total_weight h <= weighted_sum f h <= hi * total_weight h)%R.
Proof.
  induction h as [|[[v d] w] h IH]; intros H; cbn [weighted_sum total_weight]; [lra|].
  destruct (H (v, d, w)) as (Hd & Hw & Hl & Hh); [simpl; auto|]. cbn [fst snd] in *.
  destruct IH as [I1 I2]; [intros; apply H; simpl; auto|].
  assert (Hp : (0 <= w * later_decays h)%R).
  { apply Rmult_le_pos; auto. apply later_decays_nonneg. intros e He.
    apply (H e). simpl; auto. }
  split; nra.
Qed.

Lemma total_weight_nonneg (h : hist) :
  (forall e, In e h -> 0 <= snd (fst e) /\ 0 <= snd e)%R -> (0 <= total_weight h)%R.
Proof.
  induction h as [|[[v d] w] h IH]; intros H; cbn [total_weight]; [lra|].
  assert (0 <= w * later_decays h)%R.
  { apply Rmult_le_pos; [apply (H (v,d,w)); simpl; auto|].
    apply later_decays_nonneg. intros e He. apply (H e). simpl; auto. }
  assert (0 <= total_weight h)%R by (apply IH; intros; apply H; simpl; auto). lra.
Qed.

Lemma mav_convex (h : hist) (init : I -> R) i lo hi :
  init i = 0%R -> total_weight h <> 0%R ->
  (forall e, In e h -> 0 <= snd (fst e) /\ 0 <= snd e /\ lo <= fst (fst e) i <= hi)%R ->
  exists x, mav_value (mav_run (mav_init init true) (adds h)) i = Some x /\ (lo <= x <= hi)%R.
Proof.
  intros H0 Hw H. rewrite mav_fresh_value by auto. eexists; split; [reflexivity|].
  destruct (weighted_sum_bounds h (fun v => v i) lo hi H) as [H1 H2].
  assert (Hp : (0 < total_weight h)%R).
  { assert (0 <= total_weight h)%R; [|lra]. apply total_weight_nonneg. intros e He.
    split; apply (H e); auto. }
  split.
  - apply Rmult_le_reg_r with (total_weight h); auto.
    unfold Rdiv. rewrite Rmult_assoc, Rinv_l, Rmult_1_r by lra. exact H1.
  - apply Rmult_le_reg_r with (total_weight h); auto.
    unfold Rdiv. rewrite Rmult_assoc, Rinv_l, Rmult_1_r by lra. exact H2.
Qed.

(** The total weight is positive as soon as one positive weight was added with
    positive decays afterwards. *)
Lemma total_weight_pos (h : hist) :
  h <> [] -> (forall e, In e h -> 0 <= snd (fst e) /\ 0 < snd e)%R -> (0 < total_weight h)%R.
Proof.
  intros Hne H. destruct (exists_last Hne) as (h' & [[v d] w] & ->).
  assert (E : forall h1 h2 : hist, total_weight (h1 ++ h2) =
                (total_weight h1 * later_decays h2 + total_weight h2)%R).
  { assert (L : forall h1 h2 : hist, later_decays (h1 ++ h2) = (later_decays h1 * later_decays h2)%R).
    { induction h1 as [|[[? ?] ?] h1 IH]; intros h2; cbn [app later_decays]; [lra|]. rewrite IH. ring. }
    induction h1 as [|[[? ?] ?] h1 IH]; intros h2; cbn [app total_weight]; [lra|].
    rewrite IH, L. ring. }
  rewrite E. cbn [total_weight later_decays].
  destruct (H (v, d, w)) as [Hd Hw]; [apply in_or_app; simpl; auto|]. cbn in Hd, Hw.
  assert (0 <= total_weight h')%R.
  { apply total_weight_nonneg. intros e He. destruct (H e); [apply in_or_app; auto|]. lra. }
  assert (0 <= total_weight h' * (d * 1))%R by (apply Rmult_le_pos; lra). lra.
Qed.

(* ---------------------------------------------------------------- *)
(** * accumulator *)
Lemma acc_run_app (a : acc I) o1 o2 :
  acc_run a (o1 ++ o2) =
  let (a1, l1) := acc_run a o1 in let (a2, l2) := acc_run a1 o2 in (a2, l1 ++ l2).
Proof.
  revert a; induction o1 as [|o o1 IH]; intros a; cbn [app acc_run].
  - destruct (acc_run a o2); reflexivity.
  - destruct (acc_step a o) as [a' out]. rewrite IH.
    destruct (acc_run a' o1) as [a1 l1]. destruct (acc_run a1 o2) as [a2 l2]. reflexivity.
Qed.

Lemma acc_run_accumulate (a : acc I) (vs : list (I -> R)) i :
  let a' := fst (acc_run a (map AAccumulate vs)) in
  c_var a' i = (c_var a i + Rsum (map (fun v => v i) vs))%R /\
  c_count a' = (c_count a + INR (List.length vs))%R.
Proof.
  revert a; induction vs as [|v vs IH]; intros a; cbn [map acc_run].
  - cbn. split; lra.
  - cbn [acc_step].
    specialize (IH (mkAcc (fun i => c_var a i + v i)%R (c_count a + 1)%R)).
    destruct (acc_run _ (map AAccumulate vs)) as [a'' outs]. cbn [fst c_var c_count] in *.
    destruct IH as [H1 H2]. rewrite H1, H2. cbn [List.length Rsum fold_right].
    rewrite S_INR. unfold Rsum. split; cbn [map fold_right]; lra.
Qed.

Lemma acc_value_mean (vs : list (I -> R)) i :
  acc_value (fst (acc_run acc_init (map AAccumulate vs))) i =
  match vs with
  | [] => None
  | _ => Some (Rsum (map (fun v => v i) vs) / INR (List.length vs))%R
  end.
Proof.
  unfold acc_value. destruct (acc_run_accumulate acc_init vs i) as [H1 H2].
  rewrite H1, H2. cbn [acc_init c_var c_count]. rewrite !Rplus_0_l.
  destruct vs as [|v vs].
  - cbn. destruct (Req_EM_T 0 0); [reflexivity|congruence].
  - destruct (Req_EM_T (INR (List.length (v :: vs))) 0) as [E|]; [|reflexivity].
    exfalso. apply (not_0_INR (List.length (v :: vs))); [discriminate|exact E].
Qed.

Definition is_reset (o : acc_op I) : bool :=
  match o with AAccumulate _ => false | _ => true end.

Lemma acc_since_reset (pre : list (acc_op I)) (vs : list (I -> R)) i :
  (pre = [] \/ exists pre' o, pre = pre' ++ [o] /\ is_reset o = true) ->
  acc_value (fst (acc_run acc_init (pre ++ map AAccumulate vs))) i =
  match vs with
  | [] => None
  | _ => Some (Rsum (map (fun v => v i) vs) / INR (List.length vs))%R
  end.
Proof.
  intros Hp. rewrite acc_run_app.
  assert (E : fst (acc_run acc_init pre) = acc_init).
  { destruct Hp as [->|(pre' & o & -> & Ho)]; [reflexivity|].
    rewrite acc_run_app. destruct (acc_run acc_init pre') as [a1 l1]. cbn [acc_run].
    destruct o; try discriminate; reflexivity. }
  destruct (acc_run acc_init pre) as [a1 l1]. cbn [fst] in E. subst a1.
  rewrite <- acc_value_mean.
  destruct (acc_run acc_init (map AAccumulate vs)) as [a2 l2]. reflexivity.
Qed.

Lemma acc_read_reset (pre : list (acc_op I)) (vs : list (I -> R)) :
  (pre = [] \/ exists pre' o, pre = pre' ++ [o] /\ is_reset o = true) ->
  let '(a, outs) := acc_run acc_init (pre ++ map AAccumulate vs ++ [AReadReset]) in
  a = acc_init /\
  exists out, last outs None = Some out /\
    forall i, out i = match vs with
                      | [] => None
                      | _ => Some (Rsum (map (fun v => v i) vs) / INR (List.length vs))%R
                      end.
Proof.
  intros Hp. rewrite app_assoc, acc_run_app.
  pose proof (fun i => acc_since_reset pre vs i Hp) as Hv.
  destruct (acc_run acc_init (pre ++ map AAccumulate vs)) as [a1 l1]. cbn [fst] in Hv.
  cbn [acc_run acc_step]. split; auto.
  exists (acc_value a1). split; [apply last_last|]. exact Hv.
Qed.

(** Every operation sequence has the shape used above. *)
Lemma acc_decompose (ops : list (acc_op I)) :
  exists pre vs, ops = pre ++ map AAccumulate vs /\
    (pre = [] \/ exists pre' o, pre = pre' ++ [o] /\ is_reset o = true).
Proof.
  induction ops as [|o ops IH] using rev_ind.
  - exists [], []. split; auto.
  - destruct IH as (pre & vs & -> & Hp). destruct o as [v| |].
    + exists pre, (vs ++ [v]). rewrite map_app, app_assoc. auto.
    + eexists _, []. split; [cbn; rewrite app_nil_r; reflexivity|]. right. eauto.
    + eexists _, []. split; [cbn; rewrite app_nil_r; reflexivity|]. right. eauto.
Qed.
End Mav.

(* ---------------------------------------------------------------- *)
(** * num_conv_locations *)
Lemma length_filter_countb {A} (f : A -> bool) l : List.length (filter f l) = countb f l.
Proof. reflexivity. Qed.

Lemma ceil_div_nat n s : s > 0 ->
  ceil_div (Z.of_nat n) (Z.of_nat s) = Z.of_nat ((n + (s - 1)) / s).
Proof.
  intros Hs. unfold ceil_div. rewrite Nat2Z.inj_div, Nat2Z.inj_add, Nat2Z.inj_sub by lia.
  set (a := Z.of_nat n). set (b := Z.of_nat s). assert (0 < b)%Z by lia. assert (0 <= a)%Z by lia.
  assert (E : ((a + (b - Z.of_nat 1)) / b = - (- a / b))%Z); [|lia].
  symmetry. apply Z.div_unique with (r := ((a + (b - 1)) - b * (- (- a / b)))%Z); [|lia].
  left. pose proof (Z.div_mod (- a) b ltac:(lia)). pose proof (Z.mod_pos_bound (- a) b ltac:(lia)).
  nia.
Qed.

Lemma stride_points_count n s : s > 0 ->
  List.length (stride_points n s) = (n + (s - 1)) / s.
Proof.
  intros Hs. unfold stride_points. rewrite length_filter_countb.
  rewrite (count_residue_prefix s 0 n) by lia. f_equal. lia.
Qed.

Lemma ceil_stride n s : s > 0 ->
  ceil_div (Z.of_nat n) (Z.of_nat s) = Z.of_nat (List.length (stride_points n s)).
Proof. intros H. rewrite ceil_div_nat, stride_points_count by auto. reflexivity. Qed.

Lemma placements_count n f s : s > 0 -> f <= n + 1 ->
  List.length (placements n f s) = List.length (stride_points (n + 1 - f) s).
Proof.
  intros Hs Hf. unfold placements, stride_points.
  replace (n + 1) with ((n + 1 - f) + f) at 1 by lia.
  rewrite seq_app, filter_app, app_length.
  assert (E1 : filter (fun p => (p mod s =? 0) && (p + f <=? n)) (seq 0 (n + 1 - f))
               = filter (fun p => p mod s =? 0) (seq 0 (n + 1 - f))).
  { apply filter_ext_in. intros p Hp. apply in_seq in Hp.
    rewrite (proj2 (Nat.leb_le (p + f) n)) by lia. apply andb_true_r. }
  assert (E2 : filter (fun p => (p mod s =? 0) && (p + f <=? n)) (seq (0 + (n + 1 - f)) f) = []).
  { rewrite (filter_ext_in _ (fun _ => false)).
    - induction (seq _ f); auto.
    - intros p Hp. apply in_seq in Hp.
      rewrite (proj2 (Nat.leb_gt (p + f) n)) by lia. apply andb_false_r. }
  rewrite E1, E2. simpl. lia.
Qed.

Lemma ceil_valid n f s : s > 0 -> f <= n + 1 ->
  ceil_div (Z.of_nat n - Z.of_nat f + 1) (Z.of_nat s)
  = Z.of_nat (List.length (placements n f s)).
Proof.
  intros Hs Hf. rewrite placements_count, <- ceil_stride by auto. f_equal. lia.
Qed.

Local Notation Zs := (map Z.of_nat).

Lemma lower_letter lo up c :
  In (lo, up) [("v", "V"); ("a", "A"); ("l", "L"); ("i", "I"); ("d", "D")]%char ->
  lower_ascii c = lo <-> letter lo up c.
Proof.
  unfold letter. intros [H|[H|[H|[H|[H|[]]]]]]; injection H as <- <-;
    destruct c as [[] [] [] [] [] [] [] []]; cbv; split;
    (intros H; discriminate) || (intros [H|H]; discriminate) || auto.
Qed.
Lemma lower_spells s : lower s = "valid"%string <-> spells_valid s.
Proof.
  split.
  - intros H.
    destruct s as [|a [|b [|c [|d [|e [|f s]]]]]]; cbn in H; try discriminate.
    injection H as A B C D E.
    exists a, b, c, d, e. split; auto.
    repeat split; eapply lower_letter; cbn; eauto 10.
  - intros (a & b & c & d & e & -> & A & B & C & D & E).
    apply lower_letter in A, B, C, D, E; cbn; auto 10.
    rewrite A, B, C, D, E. reflexivity.
Qed.

Lemma conv1d_valid b n c f ci co s0 s1 s2 pad :
  s1 > 0 -> f <= n + 1 -> spells_valid pad ->
  num_conv_locations (Zs [b; n; c]) (Zs [f; ci; co]) (Some (Zs [s0; s1; s2])) (Some pad)
  = Ok (Z.of_nat (List.length (placements n f s1))).
Proof.
  intros Hs Hf Hp. apply lower_spells in Hp. unfold num_conv_locations. cbn -[is_valid_padding ceil_div placements Z.of_nat].
  unfold is_valid_padding. rewrite Hp. cbn -[ceil_div placements Z.of_nat].
  rewrite ceil_valid by auto. reflexivity.
Qed.
Lemma conv1d_same b n c f ci co s0 s1 s2 pad :
  s1 > 0 -> (forall p, pad = Some p -> ~ spells_valid p) ->
  num_conv_locations (Zs [b; n; c]) (Zs [f; ci; co]) (Some (Zs [s0; s1; s2])) pad
  = Ok (Z.of_nat (List.length (stride_points n s1))).
Proof.
  intros Hs Hp. unfold num_conv_locations. cbn -[is_valid_padding ceil_div stride_points Z.of_nat].
  assert (Hp' : forall p, pad = Some p -> lower p <> "valid"%string)
    by (intros p E L; apply lower_spells in L; exact (Hp p E L)).
  clear Hp; rename Hp' into Hp.
  assert (E : is_valid_padding pad = false).
  { destruct pad as [p|]; cbn; auto. apply String.eqb_neq. apply Hp; auto. }
  rewrite E. rewrite ceil_stride by auto. reflexivity.
Qed.

Lemma conv2d_valid b n1 n2 c f1 f2 ci co s0 s1 s2 s3 pad :
  s1 > 0 -> s2 > 0 -> f1 <= n1 + 1 -> f2 <= n2 + 1 -> spells_valid pad ->
  num_conv_locations (Zs [b; n1; n2; c]) (Zs [f1; f2; ci; co])
                     (Some (Zs [s0; s1; s2; s3])) (Some pad)
  = Ok (Z.of_nat (List.length (list_prod (placements n1 f1 s1) (placements n2 f2 s2)))).
Proof.
  intros H1 H2 H3 H4 Hp. apply lower_spells in Hp. unfold num_conv_locations.
  cbn -[is_valid_padding ceil_div placements Z.of_nat list_prod].
  unfold is_valid_padding. rewrite Hp. cbn -[ceil_div placements Z.of_nat list_prod].
  rewrite !ceil_valid by auto. rewrite prod_length, Nat2Z.inj_mul. reflexivity.
Qed.
Lemma conv2d_same b n1 n2 c f1 f2 ci co s0 s1 s2 s3 pad :
  s1 > 0 -> s2 > 0 -> (forall p, pad = Some p -> ~ spells_valid p) ->
  num_conv_locations (Zs [b; n1; n2; c]) (Zs [f1; f2; ci; co])
                     (Some (Zs [s0; s1; s2; s3])) pad
  = Ok (Z.of_nat (List.length (list_prod (stride_points n1 s1) (stride_points n2 s2)))).
Proof.
  intros H1 H2 Hp. unfold num_conv_locations.
  cbn -[is_valid_padding ceil_div stride_points Z.of_nat list_prod].
  assert (Hp' : forall p, pad = Some p -> lower p <> "valid"%string)
    by (intros p E L; apply lower_spells in L; exact (Hp p E L)).
  clear Hp; rename Hp' into Hp.
  assert (E : is_valid_padding pad = false).
  { destruct pad as [p|]; cbn; auto. apply String.eqb_neq. apply Hp; auto. }
  rewrite E. rewrite !ceil_stride by auto. rewrite prod_length, Nat2Z.inj_mul. reflexivity.
Qed.

Lemma conv_default_strides sh fs pad :
  num_conv_locations sh fs None pad =
  num_conv_locations sh fs
    (Some (if Nat.eqb (List.length sh) 4 then [1;1;1;1]%Z else [1;1;1]%Z)) pad.
Proof. reflexivity. Qed.

Lemma conv_bad_rank sh fs st pad :
  (List.length sh <> 3 /\ List.length sh <> 4) \/ List.length sh <> List.length fs ->
  num_conv_locations sh fs st pad = Raise ValueError.
Proof.
  intros H. unfold num_conv_locations.
  destruct (Nat.eqb_spec (List.length sh) 4), (Nat.eqb_spec (List.length sh) 3); cbn [negb andb];
    try lia; auto;
  (destruct (Nat.eqb_spec (List.length sh) (List.length fs)); cbn [negb]; [lia|auto]).
Qed.

(* ---------------------------------------------------------------- *)
(** * depthwise filters *)
Lemma sum_nat_map_const {A} (l : list A) (g : A -> nat) c :
  (forall x, In x l -> g x = c) -> sum_nat (map g l) = List.length l * c.
Proof.
  induction l as [|x l IH]; simpl; intros H; auto.
Qed.

Lemma at_in_blocks (g : nat -> filter4) n start a b c d :
  (forall i, f_in (g i) = 1) -> c < n ->
  at_in (map g (seq start n)) a b c d = f_at (g (start + c)) a b 0 d.
Proof.
  intros Hg. revert start c; induction n as [|n IH]; intros start c Hc; [lia|].
  cbn [seq map at_in]. rewrite Hg. destruct c as [|c].
  - cbn. rewrite Nat.add_0_r. reflexivity.
  - rewrite (proj2 (Nat.ltb_ge (S c) 1)) by lia.
    replace (S c - 1) with c by lia. rewrite IH by lia.
    rewrite <- plus_n_Sm. reflexivity.
Qed.

Lemma at_out_blocks (g : nat -> filter4) m n start a b c d :
  (forall i, f_out (g i) = m) -> d < n * m ->
  at_out (map g (seq start n)) a b c d = f_at (g (start + d / m)) a b c (d mod m).
Proof.
  intros Hg. revert start d; induction n as [|n IH]; intros start d Hd; [lia|].
  cbn [seq map at_out]. rewrite Hg. destruct (Nat.ltb_spec d m) as [Hlt|Hge].
  - rewrite Nat.div_small, Nat.mod_small by auto. rewrite Nat.add_0_r. reflexivity.
  - assert (m <> 0) by lia.
    rewrite IH by lia.
    assert (E1 : d / m = S ((d - m) / m)).
    { replace d with ((d - m) + 1 * m) at 1 by lia. rewrite Nat.div_add by auto. lia. }
    assert (E2 : d mod m = (d - m) mod m).
    { replace d with ((d - m) + 1 * m) at 1 by lia. rewrite Nat.mod_add by auto. reflexivity. }
    rewrite E1, E2. f_equal. rewrite <- plus_n_Sm. reflexivity.
Qed.

Lemma depthwise_row f i a b c d :
  i < f_in f -> c < f_in f ->
  at_in (depthwise_elements f i) a b c d = if Nat.eqb c i then f_at f a b i d else 0%R.
Proof.
  intros Hi Hc. unfold depthwise_elements.
  destruct (Nat.ltb_spec 0 i) as [H0|H0].
  - cbn [app at_in zeros4 f_in]. destruct (Nat.ltb_spec c i).
    + destruct (Nat.eqb_spec c i); [lia|reflexivity].
    + cbn [slice_in f_in f_at]. destruct (Nat.ltb_spec (c - i) 1).
      * assert (c = i) by lia. subst c. rewrite Nat.eqb_refl. f_equal. lia.
      * destruct (Nat.eqb_spec c i); [lia|].
        destruct (Nat.ltb_spec (i + 1) (f_in f)); [|cbn; auto].
        cbn [at_in f_in zeros4 f_at]. destruct (_ <? _); reflexivity.
  - assert (i = 0) by lia. subst i. cbn [app at_in slice_in f_in f_at].
    destruct (Nat.ltb_spec c 1).
    + assert (c = 0) by lia. subst c. reflexivity.
    + destruct (Nat.eqb_spec c 0); [lia|].
      destruct (Nat.ltb_spec (0 + 1) (f_in f)); [|cbn; auto].
      cbn [at_in f_in zeros4 f_at]. destruct (_ <? _); reflexivity.
Qed.

Lemma depthwise_elements_in f i :
  i < f_in f -> sum_nat (map f_in (depthwise_elements f i)) = f_in f.
Proof.
  intros Hi. unfold depthwise_elements, sum_nat.
  destruct (Nat.ltb_spec 0 i), (Nat.ltb_spec (i + 1) (f_in f)); cbn; lia.
Qed.

Lemma depthwise_to_conv2d_spec f :
  f_in f <> 0 ->
  exists g, depthwise_to_conv2d f = Ok g /\
    f_h g = f_h f /\ f_w g = f_w f /\ f_in g = f_in f /\ f_out g = f_in f * f_out f /\
    forall a b c i m, c < f_in f -> i < f_in f -> m < f_out f ->
      f_at g a b c (i * f_out f + m) = if Nat.eqb c i then f_at f a b i m else 0%R.
Proof.
  intros Hne. unfold depthwise_to_conv2d. destruct (f_in f) as [|n0] eqn:En; [congruence|].
  rewrite <- En in *. clear n0 En. eexists. split; [reflexivity|].
  cbn [concat_out f_h f_w f_in f_out f_at]. repeat split.
  - rewrite map_map. rewrite (sum_nat_map_const _ _ (f_out f)) by reflexivity.
    rewrite seq_length. reflexivity.
  - intros a b c i m Hc Hi Hm.
    rewrite (at_out_blocks _ (f_out f)) by (try reflexivity; nia).
    rewrite Nat.div_add_l, Nat.div_small, Nat.add_0_r by lia.
    rewrite (Nat.add_comm (i * f_out f) m), Nat.mod_add, Nat.mod_small by lia.
    cbn [plus concat_in f_at]. apply depthwise_row; auto.
Qed.

Lemma conv2d_to_depthwise_spec f m :
  f_in f <> 0 -> f_out f = f_in f * m ->
  exists g, conv2d_to_depthwise f = Ok g /\
    f_h g = f_h f /\ f_w g = f_w f /\ f_in g = f_in f /\ f_out g = m /\
    forall a b i d, i < f_in f -> f_at g a b i d = f_at f a b i (i * m + d).
Proof.
  intros Hne Ho. unfold conv2d_to_depthwise. destruct (f_in f) as [|n0] eqn:En; [congruence|].
  rewrite <- En in *. clear n0 En.
  rewrite Ho, (Nat.mul_comm (f_in f) m), Nat.mod_mul by auto. cbn [Nat.eqb negb].
  rewrite Nat.div_mul by auto.
  eexists. split; [reflexivity|]. cbn [concat_in f_h f_w f_in f_out f_at]. repeat split.
  - rewrite map_map. rewrite (sum_nat_map_const _ _ 1) by reflexivity. rewrite seq_length. lia.
  - intros a b i d Hi. rewrite at_in_blocks by (auto; reflexivity). reflexivity.
Qed.

Lemma depthwise_roundtrip f :
  f_in f <> 0 ->
  exists g f', depthwise_to_conv2d f = Ok g /\ conv2d_to_depthwise g = Ok f' /\ filter_eq f' f.
Proof.
  intros Hne. destruct (depthwise_to_conv2d_spec f Hne) as (g & Eg & H1 & H2 & H3 & H4 & H5).
  destruct (conv2d_to_depthwise_spec g (f_out f)) as (f' & Ef & K1 & K2 & K3 & K4 & K5);
    [congruence|congruence|].
  exists g, f'. split; auto. split; auto.
  unfold filter_eq. repeat split; try congruence.
  intros a b c d Ha Hb Hc Hd. rewrite K5 by congruence.
  rewrite H5 by congruence. rewrite Nat.eqb_refl. reflexivity.
Qed.

(** The other direction: a conv2d filter whose off-diagonal blocks vanish. *)
Lemma depthwise_roundtrip_back g m :
  f_in g <> 0 -> f_out g = f_in g * m ->
  (forall a b c i d, c < f_in g -> i < f_in g -> d < m -> c <> i ->
     f_at g a b c (i * m + d) = 0%R) ->
  exists f g', conv2d_to_depthwise g = Ok f /\ depthwise_to_conv2d f = Ok g' /\ filter_eq g' g.
Proof.
  intros Hne Ho Hz. destruct (conv2d_to_depthwise_spec g m Hne Ho) as (f & Ef & K1 & K2 & K3 & K4 & K5).
  destruct (depthwise_to_conv2d_spec f) as (g' & Eg & H1 & H2 & H3 & H4 & H5); [congruence|].
  exists f, g'. split; auto. split; auto.
  unfold filter_eq. repeat split; try congruence.
  intros a b c d Ha Hb Hc Hd.
  assert (Hm : m <> 0) by (rewrite H4, K4 in Hd; nia).
  rewrite (Nat.div_mod d m) by auto. rewrite (Nat.mul_comm m).
  assert (Hi : d / m < f_in g).
  { apply Nat.div_lt_upper_bound; auto. rewrite H4, K4, K3 in Hd. lia. }
  assert (Hr : d mod m < m) by (apply Nat.mod_upper_bound; auto).
  subst m. rewrite H5 by congruence.
  destruct (Nat.eqb_spec c (d / f_out f)) as [->|Hn].
  - rewrite K5 by congruence. reflexivity.
  - symmetry. apply Hz; auto. congruence.
Qed.

Lemma conv2d_to_depthwise_rejects f :
  f_in f <> 0 -> Nat.modulo (f_out f) (f_in f) <> 0 ->
  conv2d_to_depthwise f = Raise ValueError.
Proof.
  intros Hne H. unfold conv2d_to_depthwise. destruct (f_in f); [congruence|].
  destruct (Nat.eqb_spec (f_out f mod S n) 0); [contradiction|reflexivity].
Qed.

Lemma sum_to_ext n g1 g2 : (forall k, k < n -> g1 k = g2 k) -> sum_to n g1 = sum_to n g2.
Proof.
  intros H. unfold sum_to. f_equal. apply map_ext_in. intros k Hk. apply in_seq in Hk. apply H; lia.
Qed.
Lemma sum_to_S n g : sum_to (S n) g = (sum_to n g + g n)%R.
Proof.
  unfold sum_to. rewrite seq_S, map_app. cbn [map plus].
  assert (E : forall l x, Rsum (l ++ [x]) = (Rsum l + x)%R).
  { induction l as [|y l IH]; intros x; unfold Rsum in *; simpl; [lra|]. rewrite IH. lra. }
  apply E.
Qed.
Lemma sum_to_single n i (h : nat -> R) :
  i < n -> sum_to n (fun c => if Nat.eqb c i then h c else 0%R) = h i.
Proof.
  intros Hi.
  assert (G : forall n, sum_to n (fun c => if Nat.eqb c i then h c else 0%R)
                        = if Nat.ltb i n then h i else 0%R).
  { clear n Hi. induction n as [|n IH]; [reflexivity|]. rewrite sum_to_S, IH.
    destruct (Nat.eqb_spec n i) as [->|Hn].
    - rewrite (proj2 (Nat.ltb_ge i i)), (proj2 (Nat.ltb_lt i (S i))) by lia. lra.
    - destruct (Nat.ltb_spec i n), (Nat.ltb_spec i (S n)); try lia; lra. }
  rewrite G, (proj2 (Nat.ltb_lt i n)) by auto. reflexivity.
Qed.

Lemma depthwise_same_convolution f x i m :
  i < f_in f -> m < f_out f ->
  exists g, depthwise_to_conv2d f = Ok g /\
    conv2d_at g x (i * f_out f + m) = depthwise_at f x i m.
Proof.
  intros Hi Hm. destruct (depthwise_to_conv2d_spec f) as (g & Eg & H1 & H2 & H3 & H4 & H5); [lia|].
  exists g. split; auto. unfold conv2d_at, depthwise_at. rewrite H1.
  apply sum_to_ext. intros a Ha. rewrite H2. apply sum_to_ext. intros b Hb. rewrite H3.
  rewrite <- (sum_to_single (f_in f) i (fun c => x a b c * f_at f a b c m)%R) by auto.
  apply sum_to_ext. intros c Hc. rewrite H5 by auto.
  destruct (Nat.eqb_spec c i) as [->|]; [reflexivity|lra].
Qed.
