(** Replicas with equal shares of the data do what one device does with all of it. *)
From Coq Require Import List Arith Bool Reals Lia Lra FunctionalExtensionality.
From Verif.Base Require Import Py.
From Verif.Tensors Require Import Model.
From Verif.Train Require Import Model.
From Verif.Replica Require Import Model Spec CommProofs StepProofs TrainProofs.
Import ListNotations.
Open Scope list_scope.
Open Scope R_scope.

(** * Averages of averages *)

Lemma rsum_concat (ls : list (list R)) : rsum (concat ls) = rsum (map rsum ls).
Proof. induction ls as [|l ls IH]; [reflexivity|]. simpl. now rewrite rsum_app, IH. Qed.

Lemma rsum_map_mult {A} (f : A -> R) a l : rsum (map (fun x => f x * a) l) = rsum (map f l) * a.
Proof. induction l as [|x l IH]; simpl; [lra|]. rewrite IH. lra. Qed.

Lemma rsum_map_plus {A} (f g : A -> R) l :
  rsum (map (fun x => f x + g x) l) = rsum (map f l) + rsum (map g l).
Proof. induction l as [|x l IH]; simpl; [lra|]. rewrite IH. lra. Qed.

Lemma rsum_map_ext {A} (f g : A -> R) l : (forall a, In a l -> f a = g a) -> rsum (map f l) = rsum (map g l).
Proof.
  induction l as [|x l IH]; intro H; [reflexivity|]. simpl. rewrite (H x) by now left.
  rewrite IH; [reflexivity|]. intros a Ha. apply H. now right.
Qed.

Lemma concat_length_eq {A} (ls : list (list A)) B :
  (forall l, In l ls -> length l = B) -> length (concat ls) = (length ls * B)%nat.
Proof.
  induction ls as [|l ls IH]; intro H; [reflexivity|]. simpl. rewrite app_length, IH, (H l); auto.
  - now left.
  - intros l' Hl. apply H. now right.
Qed.

Lemma avg_concat {Ex} (bs : list (list Ex)) B (f : Ex -> R) :
  (1 <= B)%nat -> (1 <= length bs)%nat -> (forall b, In b bs -> length b = B) ->
  average (map (fun b => avg b f) bs) = avg (concat bs) f.
Proof.
  intros HB Hn Hl. unfold avg, average.
  rewrite !map_length, (concat_length_eq bs B Hl), mult_INR.
  rewrite concat_map, rsum_concat, map_map.
  rewrite (rsum_map_ext _ (fun b => rsum (map f b) * / INR B)).
  - rewrite rsum_map_mult. field. split; apply INR_pos; assumption.
  - intros b Hb. rewrite map_length, (Hl b Hb). reflexivity.
Qed.

(** * Structures made from functions *)

Lemma vadd_map {A} (f g : A -> R) l : vadd (map f l) (map g l) = map (fun a => f a + g a) l.
Proof. unfold vadd. induction l as [|a l IH]; [reflexivity|]. simpl. now rewrite IH. Qed.
Lemma map2_map {A B C D} (h : B -> C -> D) (f : A -> B) (g : A -> C) l :
  map2 h (map f l) (map g l) = map (fun a => h (f a) (g a)) l.
Proof. unfold map2. induction l as [|a l IH]; [reflexivity|]. simpl. now rewrite IH. Qed.

Lemma total_tables {A V} (F : A -> V -> nat -> R) (dim : V -> nat) vars bs :
  bs <> [] ->
  total (map (fun b => map (fun v => map (F b v) (seq 0 (dim v))) vars) bs)
  = map (fun v => map (fun i => rsum (map (fun b => F b v i) bs)) (seq 0 (dim v))) vars.
Proof.
  induction bs as [|b bs IH]; intro H; [now destruct H|]. destruct bs as [|b' bs].
  - simpl. apply map_ext. intro v. apply map_ext. intro i. lra.
  - change (total (map ?f (b :: b' :: bs))) with (map2 vadd (f b) (total (map f (b' :: bs)))).
    rewrite IH by discriminate. cbv beta. rewrite map2_map. apply map_ext. intro v.
    rewrite vadd_map. apply map_ext. intro i. reflexivity.
Qed.

Lemma mean_tables {A V} (F : A -> V -> nat -> R) (dim : V -> nat) vars bs :
  bs <> [] ->
  mean (map (fun b => map (fun v => map (F b v) (seq 0 (dim v))) vars) bs)
  = map (fun v => map (fun i => average (map (fun b => F b v i) bs)) (seq 0 (dim v))) vars.
Proof.
  intro H. unfold mean. rewrite total_tables, map_length by assumption. unfold sprod, vscale.
  rewrite map_map. apply map_ext. intro v. rewrite map_map. apply map_ext. intro i.
  unfold average. rewrite map_length. unfold Rdiv. apply Rmult_comm.
Qed.

(** * The quadratic model *)

Definition mft_agree (xs : list ctx) (x : ctx) : Prop :=
  (forall us vs, (forall y, In y xs -> ip (x_mft y us) (x_mft y vs) = Raise ValueError) /\
                 ip (x_mft x us) (x_mft x vs) = Raise ValueError) \/
  (exists f : ctx -> list vec -> list vec -> R,
     (forall y us vs, In y xs -> ip (x_mft y us) (x_mft y vs) = Ok (f y us vs)) /\
     (forall us vs, ip (x_mft x us) (x_mft x vs) = Ok (rsum (map (fun y => f y us vs) xs)))).

Definition batch_sized (m : nat) (c : cfg) : cfg :=
  mkCfg (c_mtype c) (c_lr c) (c_momentum c) (c_norm c) (c_use_wd c) (c_wd c) (c_rescale c)
         (INR m) (c_adapt c) (c_immediate c) (c_chief c) (c_passed c) (c_decay c) (c_interval c)
         (c_min_damping c) (c_l2 c) (c_dec c) (c_inc c) (c_incl c).

(** get_qmodel_quantities as a function of what it takes from the context *)
Definition quantities (bs : R) (pg : pairs) (mft : list vec -> list vec) (s : st) (g : pairs)
  : res (pairs * (m22 * v2 * m22)) :=
  get_qmodel_quantities (mkCfg Qmodel 0 0 None false 0 None bs false false false false 0 0 0 0 0 0 false)
    (mkCtx (fun _ => pg) (fun v => v) mft 0 (fun _ => 0) (fun _ => 0)) s g.

Lemma quantities_eq c x s g :
  get_qmodel_quantities c x s g = quantities (c_batch_size c) (x_precond x g) (x_mft x) s g.
Proof. reflexivity. Qed.

Lemma average_affine {A} (f : A -> R) b B l :
  (1 <= B)%nat -> (1 <= length l)%nat ->
  average (map (fun y => f y / INR B + b) l) = rsum (map f l) / INR (length l * B) + b.
Proof.
  intros HB Hl. unfold average. rewrite map_length, rsum_map_plus.
  rewrite (map_const l b), rsum_repeat. unfold Rdiv at 2. rewrite rsum_map_mult, mult_INR.
  field. split; apply INR_pos; assumption.
Qed.

Lemma quantities_average B xs x pg s g :
  (1 <= B)%nat -> (1 <= length xs)%nat -> mft_agree xs x ->
  (exists e, (forall y, In y xs -> quantities (INR B) pg (x_mft y) s g = Raise e) /\
             quantities (INR (length xs * B)) pg (x_mft x) s g = Raise e) \/
  (exists cc b (mf : ctx -> m22),
     (forall y, In y xs -> quantities (INR B) pg (x_mft y) s g = Ok (pg, (mf y, cc, b))) /\
     quantities (INR (length xs * B)) pg (x_mft x) s g = Ok (pg, (mean_matrix (map mf xs), cc, b))).
Proof.
  intros HB Hl Hm. unfold quantities, get_qmodel_quantities, compute_qmodel. cbn [x_precond x_mft c_batch_size].
  set (pv := compute_prev_updates s (map snd g)).
  destruct (unzip_star pg) as [[rv rv']|e]; cbn [bind]; [|left; exists e; split; reflexivity].
  destruct (unzip_star pv) as [[pv1 pv1']|e]; cbn [bind]; [|left; exists e; split; reflexivity].
  destruct (unzip_star g) as [[gv gv']|e]; cbn [bind fst snd]; [|left; exists e; split; reflexivity].
  destruct (assert_variables_match pg pv) as [u1|e]; cbn [bind]; [|left; exists e; split; reflexivity].
  destruct (assert_variables_match pv g) as [u2|e]; cbn [bind]; [|left; exists e; split; reflexivity].
  destruct (ip rv rv) as [i11|e]; cbn [bind]; [|left; exists e; split; reflexivity].
  destruct (ip pv1 rv) as [i21|e]; cbn [bind]; [|left; exists e; split; reflexivity].
  destruct (ip pv1 pv1) as [i22|e]; cbn [bind]; [|left; exists e; split; reflexivity].
  destruct Hm as [Hm|(f & Hf & Hx)].
  { left. exists ValueError. split.
    - intros y Hy. now rewrite (proj1 (Hm rv rv) y Hy).
    - now rewrite (proj2 (Hm rv rv)). }
  destruct (ip gv rv) as [c1|e] eqn:E1.
  2:{ left. exists e. rewrite !Hx. split; [|reflexivity]. intros y Hy. now rewrite !(Hf y _ _ Hy). }
  destruct (ip gv pv1) as [c2|e] eqn:E2.
  2:{ left. exists e. rewrite !Hx. split; [|reflexivity]. intros y Hy. now rewrite !(Hf y _ _ Hy). }
  right. exists (mkV c1 c2), (mkM (s_damping s * i11) (s_damping s * i21) (s_damping s * i21) (s_damping s * i22)),
    (fun y => mkM (f y rv rv / INR B + s_damping s * i11) (f y pv1 rv / INR B + s_damping s * i21)
                  (f y pv1 rv / INR B + s_damping s * i21) (f y pv1 pv1 / INR B + s_damping s * i22)).
  split.
  - intros y Hy. now rewrite !(Hf y _ _ Hy).
  - rewrite !Hx. cbn [bind]. do 4 f_equal. unfold mean_matrix. rewrite !map_map. cbn [m00 m01 m10 m11].
    rewrite !average_affine by assumption. reflexivity.
Qed.

Section Qmodel.
Variables (k : rctx) (n : nat).
Hypothesis Hk : replicated k n.
Let Hn : (1 <= n)%nat := replicated_pos k n Hk.

Lemma raw_qmodel c B xs x s g :
  agree n xs x -> mft_agree xs x -> (1 <= B)%nat ->
  c_mtype c = Qmodel \/ c_mtype c = QmodelFixedMu ->
  compute_raw_update_steps_r k (batch_sized B c) xs (repeat s n) (repeat g n)
  = each2 n (compute_raw_update_steps (batch_sized (n * B) c) x s g).
Proof.
  intros Ha Hm HB Ht. rewrite qmodel_single by exact Ht. rewrite quantities_eq.
  pose proof (ag_length _ _ _ Ha) as Hl.
  assert (Hl1 : (1 <= length xs)%nat) by (rewrite Hl; exact Hn).
  destruct (quantities_average B xs x (x_precond x g) s g HB Hl1 Hm)
    as [(e & He & Hx)|(cc & b & mf & Hy & Hx)]; rewrite Hl in Hx; cbn [c_batch_size batch_sized]; rewrite Hx.
  - cbn [bind each2].
    assert (E : mapm (fun y => get_qmodel_quantities (batch_sized B c) y s g) xs = Raise e).
    { rewrite (mapm_all_eq _ _ (Raise e)); [reflexivity|exact Hl1|].
      intros y Hy. rewrite quantities_eq, (ag_precond _ _ _ Ha y Hy). now apply He. }
    unfold compute_raw_update_steps_r. cbn [c_mtype batch_sized].
    destruct Ht as [Ht|Ht]; rewrite Ht;
      (rewrite (zip_repeat_r xs s n), zip_repeat_r, !mapm_map by (rewrite ?map_length; exact Hl);
       cbn [fst snd]; rewrite E; reflexivity).
  - assert (E : mapm (fun y => get_qmodel_quantities (batch_sized B c) y s g) xs
                = Ok (map (fun y => (x_precond x g, (mf y, cc, b))) xs)).
    { assert (Hq : forall y, In y xs -> get_qmodel_quantities (batch_sized B c) y s g
                                        = Ok (x_precond x g, (mf y, cc, b))).
      { intros y Hy'. rewrite quantities_eq, (ag_precond _ _ _ Ha y Hy'). now apply Hy. }
      clear - Hq. induction xs as [|y xs IH]; [reflexivity|]. simpl. rewrite (Hq y) by now left. simpl.
      rewrite IH; [reflexivity|]. intros y' Hy'. apply Hq. now right. }
    rewrite (qmodel_after k n Hk (batch_sized B c) xs s g _ (x_precond x g) cc b Ht Hl E).
    + cbn [bind fst snd]. rewrite map_map. cbn [fst snd]. unfold each2. reflexivity.
    + intros q Hq. apply in_map_iff in Hq as (y & <- & _). auto.
Qed.

(** * apply_gradients *)

Lemma apply_same c B xs x s g :
  agree n xs x -> mft_agree xs x -> (1 <= B)%nat ->
  apply_gradients_r k (batch_sized B c) xs (repeat s n) (repeat g n)
  = on_each n (apply_gradients (batch_sized (n * B) c) x s g).
Proof.
  intros Ha Hm HB. rewrite apply_single.
  rewrite (apply_after k n Hk (batch_sized B c) xs x s g
             (compute_raw_update_steps (batch_sized (n * B) c) x
                (maybe_update_prev_loss (batch_sized B c) x s) g) Ha).
  - reflexivity.
  - destruct (c_mtype c) eqn:Ht.
    + rewrite (raw_regular k n Hk _ xs x _ _ Ha) by exact Ht.
      unfold compute_raw_update_steps. cbn [c_mtype batch_sized]. rewrite Ht. reflexivity.
    + rewrite (raw_adam k n Hk _ xs x _ _ Ha) by exact Ht.
      unfold compute_raw_update_steps. cbn [c_mtype batch_sized]. rewrite Ht. reflexivity.
    + apply raw_qmodel; auto.
    + apply raw_qmodel; auto.
Qed.
End Qmodel.

(** * Learning problems *)

Lemma dot_app u u' v v' : length u = length v -> dot (u ++ u') (v ++ v') = dot u v + dot u' v'.
Proof.
  unfold dot. revert v. induction u as [|a u IH]; intros [|b v] H; try discriminate.
  - simpl. lra.
  - simpl in *. injection H as H. rewrite IH by assumption. lra.
Qed.

Lemma dot_flat_map {Ex} (F G : Ex -> nat -> R) d b :
  dot (flat_map (fun x => map (F x) (seq 0 d)) b) (flat_map (fun x => map (G x) (seq 0 d)) b)
  = rsum (map (fun x => dot (map (F x) (seq 0 d)) (map (G x) (seq 0 d))) b).
Proof.
  induction b as [|x b IH]; [reflexivity|]. simpl. rewrite dot_app by now rewrite !map_length.
  now rewrite IH.
Qed.

Lemma zip_map_map {A B C} (f : A -> B) (g : A -> C) l : zip (map f l) (map g l) = map (fun a => (f a, g a)) l.
Proof. induction l as [|a l IH]; [reflexivity|]. simpl. now rewrite IH. Qed.

Lemma ip_tables {A} (f g : A -> vec) l :
  ip (map f l) (map g l) = match l with [] => Raise ValueError | _ => Ok (rsum (map (fun a => dot (f a) (g a)) l)) end.
Proof.
  unfold ip. rewrite zip_map_map. destruct l as [|a l]; [reflexivity|]. simpl. now rewrite map_map.
Qed.

Lemma rsum_exchange {A B} (f : A -> B -> R) l m :
  rsum (map (fun a => rsum (map (f a) m)) l) = rsum (map (fun b => rsum (map (fun a => f a b) l)) m).
Proof.
  induction l as [|a l IH]; simpl.
  - induction m as [|b m IHm]; simpl; [reflexivity|]. rewrite <- IHm. lra.
  - rewrite IH, <- rsum_map_plus. reflexivity.
Qed.

Lemma forallb_repeat {A} (f : A -> bool) a n : (1 <= n)%nat -> forallb f (repeat a n) = f a.
Proof.
  destruct n as [|n]; [lia|]. intros _. induction n as [|n IH]; [simpl; apply andb_true_r|].
  change (f a && forallb f (repeat a (S n)) = f a). rewrite IH. apply andb_diag.
Qed.

Section Problem.
Variables (k : rctx) (n B : nat).
Hypothesis Hk : replicated k n.
Let Hn : (1 <= n)%nat := replicated_pos k n Hk.
Hypothesis HB : (1 <= B)%nat.
Variables (Ex I : Type) (pb : problem Ex I).
(** Whose statistics: everybody's, or only the first replica's *)
Variable stat_of : list (list Ex) -> list Ex.
Hypothesis Hstat : stat_of = (if syncs k then hd [] else @concat Ex).

Notation e := (replica_env pb).
Notation e' := (env_of pb (pb_finish pb) (@concat Ex) stat_of).

Lemma split_fst (i : rinput (list Ex)) : split_evenly n B i -> forall b, In b (map fst (ri_batches i)) -> length b = B.
Proof. intros [_ H] b Hb. apply in_map_iff in Hb as (p & <- & Hp). now apply H. Qed.
Lemma split_snd (i : rinput (list Ex)) : split_evenly n B i -> forall b, In b (map snd (ri_batches i)) -> length b = B.
Proof. intros [_ H] b Hb. apply in_map_iff in Hb as (p & <- & Hp). now apply H. Qed.

Lemma seq_map_nth {A} (F : nat -> A) (d : A) m j : (j < m)%nat -> nth j (map F (seq 0 m)) d = F j.
Proof.
  intro H. rewrite (nth_indep _ d (F 0%nat)) by (rewrite map_length, seq_length; exact H).
  rewrite map_nth, seq_nth by exact H. reflexivity.
Qed.

Lemma mean_stats_tables {A} (F : A -> nat -> I -> R) (bs : list A) m :
  bs <> [] ->
  mean_stats (map (fun b => map (F b) (seq 0 m)) bs)
  = map (fun f i => average (map (fun b => F b f i) bs)) (seq 0 m).
Proof.
  intro H. unfold mean_stats.
  replace (length (hd [] (map (fun b => map (F b) (seq 0 m)) bs))) with m.
  2:{ destruct bs; [now destruct H|]. simpl. now rewrite map_length, seq_length. }
  apply map_ext_in. intros j Hj. apply in_seq in Hj. apply functional_extensionality. intro i.
  f_equal. rewrite map_map. apply map_ext. intro b.
  rewrite (seq_map_nth (F b) (fun _ => 0)) by lia. reflexivity.
Qed.

Lemma problem_data i : split_evenly n B i -> same_data k n e e' i (merged i).
Proof.
  intro H. pose proof H as [Hl Hb]. constructor; try reflexivity.
  - exact Hl.
  - intro th. cbn [e_loss r_env replica_env env_of i_batch merged].
    rewrite <- (avg_concat (map fst (ri_batches i)) B) by
      (rewrite ?map_length, ?Hl; solve [exact HB | exact Hn | exact (split_fst i H)]).
    now rewrite map_map.
  - intro th. cbn [e_loss r_env replica_env env_of i_prev merged].
    rewrite <- (avg_concat (map snd (ri_batches i)) B) by
      (rewrite ?map_length, ?Hl; solve [exact HB | exact Hn | exact (split_snd i H)]).
    now rewrite map_map.
  - intro th. cbn [e_stats r_env r_finish replica_env env_of i_batch merged]. f_equal.
    set (F := fun (b : list Ex) (f : nat) (i : I) => avg b (fun x => pb_stat pb th x f i)).
    assert (Hne : ri_batches i <> []) by (pose proof Hn; destruct (ri_batches i); [simpl in Hl; lia|discriminate]).
    rewrite Hstat. unfold smart_cond_tensors. destruct (syncs k).
    + destruct (ri_batches i) as [|p bs]; [now destruct Hne|].
      cbn [map hd fst].
      change (mean_stats (map (fun _ : list (I -> R) => map (F (fst p)) (seq 0 (pb_factors pb)))
               (map (F (fst p)) (seq 0 (pb_factors pb))
                :: map (fun b => map (F (fst b)) (seq 0 (pb_factors pb))) bs))
              = map (F (fst p)) (seq 0 (pb_factors pb))).
      rewrite (mean_stats_tables (fun _ => F (fst p))) by discriminate.
      apply map_ext. intro f. apply functional_extensionality. intro j.
      rewrite (map_const _ (F (fst p) f j)), average_repeat; [reflexivity|]. simpl. lia.
    + change (mean_stats (map (fun b => map (F (fst b)) (seq 0 (pb_factors pb))) (ri_batches i))
              = map (fun f j => avg (concat (map fst (ri_batches i))) (fun x => pb_stat pb th x f j))
                    (seq 0 (pb_factors pb))).
      rewrite (mean_stats_tables (fun b => F (fst b))) by exact Hne.
      apply map_ext. intro f. apply functional_extensionality. intro j.
      rewrite <- (avg_concat (map fst (ri_batches i)) B) by
        (rewrite ?map_length, ?Hl; solve [exact HB | exact Hn | exact (split_fst i H)]).
      now rewrite map_map.
Qed.

Lemma problem_gradients i th :
  split_evenly n B i ->
  average_gradients k (map2 (fun th b => e_grads (r_env e) th (fst b)) (repeat th n) (ri_batches i))
  = repeat (e_grads e' th (i_batch (merged i))) n.
Proof.
  intro H. pose proof H as [Hl Hb].
  assert (Hne : ri_batches i <> []) by (pose proof Hn; destruct (ri_batches i); [simpl in Hl; lia|discriminate]).
  replace (map2 (fun th b => e_grads (r_env e) th (fst b)) (repeat th n) (ri_batches i))
    with (map (fun b => e_grads (r_env e) th (fst b)) (ri_batches i))
    by (rewrite <- Hl; symmetry; apply (map2_repeat_l (fun th b => e_grads (r_env e) th (fst b)))).
  unfold average_gradients. rewrite map_map.
  cbn [e_grads r_env replica_env env_of i_batch merged].
  set (F := fun (b : list Ex) v i => avg b (fun x => pb_grad pb th x v i)).
  rewrite (map_ext _ (fun b => map (fun v => map (F (fst b) v) (seq 0 (pb_dim pb v))) (pb_vars pb)))
    by (intro b; rewrite map_map; reflexivity).
  rewrite all_average_replicated by (rewrite map_length, Hl; exact Hk).
  rewrite map_length, (mean_tables (fun b => F (fst b))) by exact Hne.
  replace (length (ri_batches i)) with
    (length (map (fun b => map (fun v => (map (fun i0 => avg (fst b) (fun x => pb_grad pb th x v i0))
              (seq 0 (pb_dim pb v)), v)) (pb_vars pb)) (ri_batches i))) by now rewrite map_length.
  rewrite map2_repeat_l, map_map. rewrite <- Hl. apply map_all_eq. intros b _.
  rewrite map_map. cbn [snd]. rewrite zip_map_map. apply map_ext. intro v. f_equal. apply map_ext. intro j.
  rewrite <- (avg_concat (map fst (ri_batches i)) B) by
    (rewrite ?map_length, ?Hl; solve [exact HB | exact Hn | exact (split_fst i H)]).
  rewrite map_map. reflexivity.
Qed.

Lemma problem_mft i th q :
  mft_agree (replica_ctxs e i th q) (device_ctx e' (merged i) th q).
Proof.
  unfold mft_agree, replica_ctxs, device_ctx, loss_ctx_r, loss_ctx.
  cbn [e_mft r_env replica_env env_of i_batch merged x_mft].
  destruct (pb_losses pb) as [|L] eqn:HL.
  - left. intros us vs. split; [|reflexivity]. intros y Hy. apply in_map_iff in Hy as (b & <- & _). reflexivity.
  - right.
    set (one := fun us vs (x : Ex) => rsum (map (fun l => dot (map (pb_mft pb th x l us) (seq 0 (pb_out pb l)))
                                                     (map (pb_mft pb th x l vs) (seq 0 (pb_out pb l)))) (seq 0 (S L)))).
    assert (Hone : forall us vs (b : list Ex),
      ip (map (fun l => flat_map (fun x => map (pb_mft pb th x l us) (seq 0 (pb_out pb l))) b) (seq 0 (S L)))
         (map (fun l => flat_map (fun x => map (pb_mft pb th x l vs) (seq 0 (pb_out pb l))) b) (seq 0 (S L)))
      = Ok (rsum (map (one us vs) b))).
    { intros us vs b. rewrite ip_tables. cbn [seq]. f_equal. change (0%nat :: seq 1 L) with (seq 0 (S L)).
      rewrite (rsum_map_ext _ (fun l => rsum (map (fun x => dot (map (pb_mft pb th x l us) (seq 0 (pb_out pb l)))
                                                     (map (pb_mft pb th x l vs) (seq 0 (pb_out pb l)))) b))).
      - apply rsum_exchange.
      - intros l _. apply (dot_flat_map (fun x => pb_mft pb th x l us) (fun x => pb_mft pb th x l vs)). }
    exists (fun y us vs => match ip (x_mft y us) (x_mft y vs) with Ok r => r | Raise _ => 0 end).
    split.
    + intros y us vs Hy. apply in_map_iff in Hy as (b & <- & _). cbn [x_mft]. now rewrite !Hone.
    + intros us vs. rewrite Hone. f_equal. rewrite map_map. cbn [x_mft].
      rewrite (rsum_map_ext _ (fun b => rsum (map (one us vs) (fst b)))).
      * rewrite concat_map, rsum_concat, !map_map. reflexivity.
      * intros b _. now rewrite Hone.
Qed.

Lemma full_step_same p i q :
  split_evenly n B i ->
  full_step_r k (with_batch_size B p) e i (repeat q n)
  = on_each n (full_step (with_batch_size (n * B) p) e' (merged i) q).
Proof.
  intro H. unfold full_step_r, full_step. rewrite !map_repeat. cbv zeta.
  rewrite (problem_gradients i _ H).
  rewrite (kfac_update_same k n Hk _ _ e _ e' (with_batch_size B p) i (merged i) q (problem_data i H)).
  set (q1 := kfac_update_ops (with_batch_size B p) e' (merged i) q).
  rewrite ctxs_written by apply H. rewrite map_repeat.
  change (p_cfg (with_batch_size B p)) with (batch_sized B (p_cfg p)).
  rewrite (apply_same k n Hk (p_cfg p) B _ (device_ctx e' (merged i) (s_params (o_st q)) q1)).
  - change (kfac_update_ops (with_batch_size (n * B) p) e' (merged i) q) with q1.
    change (p_cfg (with_batch_size (n * B) p)) with (batch_sized (n * B) (p_cfg p)).
    unfold device_ctx.
    destruct (apply_gradients _ _ (o_st q1) _) as [s'|er]; [|reflexivity].
    cbn [on_each bind]. now rewrite map2_repeat.
  - apply (ctxs_agree k n). now apply problem_data.
  - apply problem_mft.
  - exact HB.
Qed.

Lemma all_ready p (q : pst I structure) :
  forallb (fun q => Nat.ltb (o_burnin q) (p_burnin p)) (repeat q n) = Nat.ltb (o_burnin q) (p_burnin p).
Proof. apply (forallb_repeat (fun q : pst I structure => Nat.ltb (o_burnin q) (p_burnin p))). exact Hn.
Qed.

Lemma minimize_same p i q :
  split_evenly n B i -> construct_r k (with_batch_size B p) = Ok tt ->
  minimize_r k (with_batch_size B p) e (repeat q n) i
  = on_each n (minimize (with_batch_size (n * B) p) e' q (merged i)).
Proof.
  intros H Hc. unfold minimize_r, minimize. cbn [p_burnin with_batch_size].
  destruct (Nat.eqb (p_burnin p) 0) eqn:E0; [now apply full_step_same|].
  rewrite (all_ready (with_batch_size B p)). cbn [p_burnin with_batch_size].
  destruct (Nat.ltb (o_burnin q) (p_burnin p)); [|now apply full_step_same].
  cbn [on_each]. f_equal. apply (burnin_same k n Hk); [now apply problem_data|].
  unfold construct_r in Hc. cbn [p_burnin with_batch_size] in Hc.
  assert (Hlt : Nat.ltb 0 (p_burnin p) = true)
    by (apply Nat.ltb_lt; apply Nat.eqb_neq in E0; lia).
  rewrite Hlt, andb_true_r in Hc. unfold syncs. destruct (replica_context k && has_kind k Mirrored); [discriminate|reflexivity].
Qed.

Lemma train_same p is_ q :
  (forall i, In i is_ -> split_evenly n B i) -> construct_r k (with_batch_size B p) = Ok tt ->
  train_r k (with_batch_size B p) e (repeat q n) is_
  = on_each n (train (with_batch_size (n * B) p) e' q (map merged is_)).
Proof.
  intros H Hc. revert q. induction is_ as [|i is_ IH]; intro q; [reflexivity|].
  cbn [train_r train map]. rewrite minimize_same; [|apply H; now left|exact Hc].
  destruct (minimize _ _ q (merged i)) as [q'|er]; [|reflexivity]. cbn [on_each bind]. apply IH.
  intros i' Hi. apply H. now right.
Qed.
End Problem.
