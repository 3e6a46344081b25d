(** The optimizer's step on replicas that hold the same variables and gradients. *)
From Coq Require Import List Arith Bool Reals Lia Lra FunctionalExtensionality.
From Verif.Base Require Import Py.
From Verif.Tensors Require Import Model.
From Verif.Train Require Import Model.
From Verif.Replica Require Import Model Spec CommProofs.
Import ListNotations.
Open Scope list_scope.
Open Scope R_scope.

(** What the replicas are given agrees with what one device is given, up to the averages. *)
Record agree (n : nat) (xs : list ctx) (x : ctx) : Prop := mkAgree {
  ag_length : length xs = n;
  ag_precond : forall y, In y xs -> x_precond y = x_precond x;
  ag_mult : forall y, In y xs -> x_mult y = x_mult x;
  ag_loss : average (map x_loss xs) = x_loss x;
  ag_loss_fn : forall th, average (map (fun y => x_loss_fn y th) xs) = x_loss_fn x th;
  ag_prev : forall th, average (map (fun y => x_prev_loss_fn y th) xs) = x_prev_loss_fn x th }.

Definition each2 {A B : Type} (n : nat) (r : res (A * B)) : res (list A * list B) :=
  match r with Ok (a, b) => Ok (repeat a n, repeat b n) | Raise e => Raise e end.

Lemma mapm_repeat {A B} (f : A -> res B) a n :
  (1 <= n)%nat -> mapm f (repeat a n) = on_each n (f a).
Proof.
  destruct n as [|n]; [lia|]. intros _. destruct (f a) as [b|e] eqn:Hf; simpl.
  - rewrite Hf. simpl. assert (H : mapm f (repeat a n) = Ok (repeat b n)).
    { induction n as [|n IH]; [reflexivity|]. simpl. now rewrite Hf, IH. }
    now rewrite H.
  - now rewrite Hf.
Qed.

Lemma mapm_all_eq {A B} (f : A -> res B) l r :
  (1 <= length l)%nat -> (forall a, In a l -> f a = r) -> mapm f l = on_each (length l) r.
Proof.
  intros Hl H. destruct r as [b|e]; simpl.
  - clear Hl. induction l as [|a l IH]; [reflexivity|]. simpl. rewrite (H a) by now left. simpl.
    rewrite IH; [reflexivity|]. intros a' Ha. apply H. now right.
  - destruct l as [|a l]; [simpl in Hl; lia|]. simpl. now rewrite (H a) by now left.
Qed.

Lemma mapm_ok {A B} (f : A -> res B) l bs :
  mapm f l = Ok bs -> length bs = length l /\
  (forall b, In b bs -> exists a, In a l /\ f a = Ok b).
Proof.
  revert bs. induction l as [|a l IH]; intros bs H; simpl in H.
  - injection H as <-. split; [reflexivity|]. intros b [].
  - destruct (f a) as [b|e] eqn:Hf; [|discriminate]. simpl in H.
    destruct (mapm f l) as [bs'|e'] eqn:Hm; [|discriminate]. simpl in H. injection H as <-.
    destruct (IH bs' eq_refl) as [Hl Hi]. split; [simpl; now rewrite Hl|].
    intros b' [<-|Hb]; [exists a; split; [now left|assumption]|].
    destruct (Hi b' Hb) as (a' & Ha & Hfa). exists a'. split; [now right|assumption].
Qed.

Lemma mapm_map {A B C} (f : B -> res C) (g : A -> B) l : mapm f (map g l) = mapm (fun a => f (g a)) l.
Proof. induction l as [|a l IH]; [reflexivity|]. simpl. now rewrite IH. Qed.

Lemma mapm_ext_in {A B} (f g : A -> res B) l :
  (forall a, In a l -> f a = g a) -> mapm f l = mapm g l.
Proof.
  induction l as [|a l IH]; intro H; [reflexivity|]. simpl. rewrite (H a) by now left.
  rewrite IH; [reflexivity|]. intros a' Ha. apply H. now right.
Qed.

Lemma zip_repeat_r {A B} (l : list A) (b : B) n :
  length l = n -> zip l (repeat b n) = map (fun a => (a, b)) l.
Proof. intros <-. induction l as [|a l IH]; [reflexivity|]. simpl. now rewrite IH. Qed.

Lemma in_zip {A B} (l : list A) (m : list B) a b : In (a, b) (zip l m) -> In a l /\ In b m.
Proof.
  revert m. induction l as [|x l IH]; intros [|y m] H; try (now destruct H).
  destruct H as [E|H]; [injection E as -> ->; split; left; reflexivity|].
  destruct (IH m H). split; right; assumption.
Qed.

Lemma map2_const_r {A B C} (f : A -> B -> C) l y n :
  length l = n -> map2 f l (repeat y n) = map (fun a => f a y) l.
Proof. intros <-. apply map2_repeat_r. Qed.

Section Step.
Variables (k : rctx) (n : nat).
Hypothesis Hk : replicated k n.
Let Hn : (1 <= n)%nat := replicated_pos k n Hk.

(** * Losses and damping *)

Lemma losses_averaged l : length l = n -> all_average1 k l = repeat (average l) n.
Proof. intro H. rewrite all_average1_replicated; rewrite H; auto. Qed.

Lemma prev_loss_r c xs x s :
  agree n xs x ->
  maybe_update_prev_loss_r k c xs (repeat s n) = repeat (maybe_update_prev_loss c x s) n.
Proof.
  intros [Hl Hp Hm Hlo Hlf Hpr]. unfold maybe_update_prev_loss_r, maybe_update_prev_loss.
  destruct (c_adapt c); [|reflexivity].
  rewrite map2_const_r by assumption. rewrite losses_averaged by (rewrite map_length; exact Hl).
  rewrite sync1_repeat, map2_repeat by exact Hn.
  replace (average _) with (if c_passed c then x_loss x else x_loss_fn x (s_params s)); [reflexivity|].
  destruct (c_passed c); symmetry; [exact Hlo|exact (Hlf (s_params s))].
Qed.

Lemma update_damping_only c x s :
  set_damping (s_damping (update_damping c x s)) (s_rho (update_damping c x s)) s = update_damping c x s.
Proof. reflexivity. Qed.

Lemma update_damping_loss c x s L :
  current_loss c x s = L -> update_damping c (with_loss L) s = update_damping c x s.
Proof.
  intros <-. unfold update_damping. replace (current_loss c (with_loss _) s) with (current_loss c x s).
  - reflexivity.
  - unfold with_loss, current_loss at 2. simpl. now destruct (c_immediate c).
Qed.

Lemma update_damping_rep c xs x s :
  agree n xs x -> update_damping_r k c xs (repeat s n) = repeat (update_damping c x s) n.
Proof.
  intros [Hl Hp Hm Hlo Hlf Hpr]. unfold update_damping_r.
  rewrite map2_const_r by assumption. rewrite losses_averaged by (rewrite map_length; exact Hl).
  rewrite map2_repeat, !map_repeat, sync1_repeat, sync_ext_repeat, zip_repeat, map2_repeat by exact Hn.
  cbn [fst snd]. rewrite update_damping_only. f_equal. apply update_damping_loss.
  unfold current_loss. destruct (c_immediate c); symmetry; [apply Hlf|apply Hpr].
Qed.

Lemma pre_damping_r c xs x s :
  agree n xs x ->
  maybe_pre_update_adapt_damping_r k c xs (repeat s n) = repeat (maybe_pre_update_adapt_damping c x s) n.
Proof.
  intro H. unfold maybe_pre_update_adapt_damping_r, maybe_pre_update_adapt_damping.
  rewrite (update_damping_rep c xs x s H).
  destruct (_ || _); [reflexivity|]. rewrite map2_repeat. reflexivity.
Qed.

Lemma post_damping_r c xs x s :
  agree n xs x ->
  maybe_post_update_adapt_damping_r k c xs (repeat s n) = repeat (maybe_post_update_adapt_damping c x s) n.
Proof.
  intro H. unfold maybe_post_update_adapt_damping_r, maybe_post_update_adapt_damping.
  rewrite (update_damping_rep c xs x s H).
  destruct (_ || _); [reflexivity|]. rewrite map2_repeat. reflexivity.
Qed.

(** * Velocities *)

Lemma velocities_r decay coeff l vel :
  update_velocities_r k (length l) (repeat vel n) (repeat decay n) (repeat coeff n) (repeat l n) =
  (repeat (fst (update_velocities vel decay coeff l)) n,
   repeat (snd (update_velocities vel decay coeff l)) n).
Proof.
  revert vel. induction l as [|[v j] l IH]; intro vel.
  - simpl. now rewrite map_repeat.
  - cbn [length update_velocities_r]. rewrite !map_repeat. cbn [hd tl].
    rewrite !zip_repeat, !map2_repeat, sync_vec_repeat, !map2_repeat by exact Hn. cbn [fst snd].
    rewrite IH. cbn [update_velocities].
    destruct (update_velocities (upd vel j _) decay coeff l) as [vel' out]. cbn [fst snd].
    now rewrite zip_repeat, map2_repeat.
Qed.

Lemma num_vars_repeat (l : pairs) : num_vars (repeat l n) = length l.
Proof. unfold num_vars. pose proof Hn. destruct n; [lia|reflexivity]. Qed.

Lemma qmodel_change_r c thunk s :
  maybe_update_qmodel_change_r k c (repeat thunk n) (repeat s n)
  = on_each n (maybe_update_qmodel_change c thunk s).
Proof.
  unfold maybe_update_qmodel_change_r, maybe_update_qmodel_change.
  rewrite zip_repeat, mapm_repeat by exact Hn. cbn [fst snd].
  destruct (is_adaptation_time c s) eqn:Ht.
  - destruct thunk as [q|e]; [|reflexivity]. simpl. rewrite sync1_repeat, map2_repeat by exact Hn.
    now rewrite Ht.
  - simpl. rewrite sync1_repeat, map2_repeat by exact Hn. now rewrite Ht.
Qed.

(** * The raw updates without the quadratic model *)

Lemma zip_ctx (xs : list ctx) (g : pairs) :
  length xs = n -> zip xs (repeat g n) = map (fun a => (a, g)) xs.
Proof. apply zip_repeat_r. Qed.

Lemma change_depends c x y s u g :
  x_mult x = x_mult y ->
  compute_approx_qmodel_change c x s u g = compute_approx_qmodel_change c y s u g.
Proof. intro H. unfold compute_approx_qmodel_change. now rewrite H. Qed.

Lemma raw_regular c xs x s g :
  agree n xs x -> c_mtype c = Regular ->
  compute_raw_update_steps_r k c xs (repeat s n) (repeat g n)
  = each2 n (compute_raw_update_steps c x s g).
Proof.
  intros [Hl Hp Hm Hlo Hlf Hpr] Ht. unfold compute_raw_update_steps_r, compute_raw_update_steps. rewrite Ht.
  rewrite zip_ctx, mapm_map by exact Hl.
  rewrite (mapm_all_eq _ _ (maybe_clip c g (x_precond x g))).
  2: rewrite Hl; exact Hn.
  2: intros y Hy; cbn [fst snd]; now rewrite (Hp y Hy).
  rewrite Hl. destruct (maybe_clip c g (x_precond x g)) as [pg|e]; [|reflexivity].
  cbn [on_each bind]. rewrite num_vars_repeat, !map_repeat, velocities_r.
  destruct (update_velocities (s_vel s) (c_momentum c) 1 pg) as [vel raw]. cbn [fst snd].
  rewrite map2_repeat. destruct (c_adapt c && c_chief c); [|reflexivity].
  rewrite !zip_repeat, zip_repeat_r by exact Hl.
  replace (map2 _ _ _) with
    (repeat (compute_approx_qmodel_change c x (set_vel vel s) (sprod_p (-1 * c_lr c) raw) g) n).
  - rewrite qmodel_change_r. destruct (maybe_update_qmodel_change c _ _); reflexivity.
  - rewrite map2_const_r by (rewrite map_length; exact Hl). rewrite map_map. cbn [fst snd].
    symmetry. rewrite <- Hl. apply map_all_eq. intros y Hy. apply change_depends. now apply Hm.
Qed.

Lemma raw_adam c xs x s g :
  agree n xs x -> c_mtype c = Adam ->
  compute_raw_update_steps_r k c xs (repeat s n) (repeat g n)
  = each2 n (compute_raw_update_steps c x s g).
Proof.
  intros [Hl Hp Hm Hlo Hlf Hpr] Ht. unfold compute_raw_update_steps_r, compute_raw_update_steps. rewrite Ht.
  rewrite num_vars_repeat, !map_repeat, velocities_r.
  destruct (update_velocities (s_vel s) (c_momentum c) 1 g) as [vel vs]. cbn [fst snd].
  rewrite map2_repeat, zip_ctx, mapm_map by exact Hl.
  rewrite (mapm_all_eq _ _ (maybe_clip c vs (x_precond x vs))).
  2: rewrite Hl; exact Hn.
  2: intros y Hy; cbn [fst snd]; now rewrite (Hp y Hy).
  rewrite Hl. destruct (maybe_clip c vs (x_precond x vs)) as [raw|e]; [|reflexivity].
  cbn [on_each bind]. destruct (c_adapt c && c_chief c); [|reflexivity].
  rewrite zip_repeat, map2_repeat, qmodel_change_r. cbn [fst snd].
  destruct (maybe_update_qmodel_change c _ _); reflexivity.
Qed.

(** * With the quadratic model *)

(** What is done with the matrix, the vector and the damping part *)
Definition after_qmodel (c : cfg) (s : st) (pg : pairs) (m : m22) (cc : v2) (b : m22) : pairs * st :=
  let fixed_mu := match c_mtype c with QmodelFixedMu => Some (c_momentum c) | _ => None end in
  let '(alpha, mu, change) := compute_qmodel_hyperparams c s m cc b fixed_mu in
  let s1 := set_qhyper (Some (- alpha)) (Some mu) (set_qchange (Some change) s) in
  let (vel, raw) := update_velocities (s_vel s1) mu (- alpha) pg in
  (raw, set_vel vel s1).

Lemma qmodel_single c x s g :
  c_mtype c = Qmodel \/ c_mtype c = QmodelFixedMu ->
  compute_raw_update_steps c x s g =
  (do q <- get_qmodel_quantities c x s g ;
   Ok (after_qmodel c s (fst q) (fst (fst (snd q))) (snd (fst (snd q))) (snd (snd q)))).
Proof.
  intro Ht. unfold compute_raw_update_steps, after_qmodel.
  destruct Ht as [Ht|Ht]; rewrite Ht; (destruct (get_qmodel_quantities c x s g) as [[pg [[m cc] b]]|e]; [|reflexivity]);
  cbn [bind fst snd]; destruct (compute_qmodel_hyperparams c s m cc b _) as [[alpha mu] change];
  destruct (update_velocities _ mu (- alpha) pg); reflexivity.
Qed.

Definition mean_matrix (ms : list m22) : m22 :=
  mkM (average (map m00 ms)) (average (map m01 ms)) (average (map m10 ms)) (average (map m11 ms)).

Lemma total_matrices ms : ms <> [] ->
  total (map (fun m => [[m00 m]; [m01 m]; [m10 m]; [m11 m]]) ms) =
  [[rsum (map m00 ms)]; [rsum (map m01 ms)]; [rsum (map m10 ms)]; [rsum (map m11 ms)]].
Proof.
  induction ms as [|m ms IH]; intro H; [now destruct H|]. destruct ms as [|m' ms].
  - simpl. repeat f_equal; lra.
  - change (total (map ?f (m :: m' :: ms))) with (map2 vadd (f m) (total (map f (m' :: ms)))).
    rewrite IH by discriminate. reflexivity.
Qed.

Lemma matrices_averaged ms : length ms = n -> average_matrices k ms = repeat (mean_matrix ms) n.
Proof.
  intro H. unfold average_matrices.
  rewrite all_average_replicated by (rewrite map_length, H; exact Hk).
  rewrite map_length, H, map_repeat. f_equal. unfold mean.
  rewrite total_matrices, map_length, H by (pose proof Hn; destruct ms; [simpl in H; lia|discriminate]).
  unfold sprod, vscale, mean_matrix, average. rewrite !map_length, H. simpl.
  f_equal; unfold Rdiv; apply Rmult_comm.
Qed.

Lemma qmodel_after c xs s g qs pg cc b :
  c_mtype c = Qmodel \/ c_mtype c = QmodelFixedMu ->
  length xs = n ->
  mapm (fun x => get_qmodel_quantities c x s g) xs = Ok qs ->
  (forall q, In q qs -> fst q = pg /\ snd (fst (snd q)) = cc /\ snd (snd q) = b) ->
  compute_raw_update_steps_r k c xs (repeat s n) (repeat g n)
  = each2 n (Ok (after_qmodel c s pg (mean_matrix (map (fun q => fst (fst (snd q))) qs)) cc b)).
Proof.
  intros Ht Hl Hq Hall.
  assert (Hlq : length qs = n) by (rewrite <- Hl; eapply mapm_ok; exact Hq).
  assert (E : compute_raw_update_steps_r k c xs (repeat s n) (repeat g n) =
    let fixed_mu := match c_mtype c with QmodelFixedMu => Some (c_momentum c) | _ => None end in
    (do qs <- mapm (fun xsg => get_qmodel_quantities c (fst (fst xsg)) (snd (fst xsg)) (snd xsg))
                    (zip (zip xs (repeat s n)) (repeat g n)) ;
      let ms := average_matrices k (map (fun q => fst (fst (snd q))) qs) in
      let hs := map2 (fun sq m => compute_qmodel_hyperparams c (fst sq) m (snd (fst (snd (snd sq))))
                                    (snd (snd (snd sq))) fixed_mu) (zip (repeat s n) qs) ms in
      let alphas := map (fun h => fst (fst h)) hs in
      let mus := map (fun h => snd (fst h)) hs in
      let ss1 := map2 (fun s v => set_qhyper (Some (fst (snd v))) (Some (snd (snd v)))
                                    (set_qchange (Some (fst v)) s)) (repeat s n)
                      (zip (sync1 k (map snd hs))
                           (zip (sync1 k (map Ropp alphas)) (sync1 k mus))) in
      let (vels, raws) := update_velocities_r k (num_vars (map fst qs)) (map s_vel ss1) mus
                            (map Ropp alphas) (map fst qs) in
      Ok (raws, map2 set_vel vels ss1))).
  { unfold compute_raw_update_steps_r. destruct Ht as [Ht|Ht]; rewrite Ht; reflexivity. }
  rewrite E. clear E. cbv zeta.
  rewrite (zip_repeat_r xs s n) by exact Hl.
  rewrite zip_repeat_r by (rewrite map_length; exact Hl). rewrite !mapm_map. cbn [fst snd].
  rewrite Hq. cbn [bind].
  set (M := mean_matrix _).
  rewrite matrices_averaged by (rewrite map_length; exact Hlq). fold M.
  set (fm := match c_mtype c with QmodelFixedMu => _ | _ => _ end).
  assert (Ef : map fst qs = repeat pg n).
  { rewrite <- Hlq. apply map_all_eq. intros q Hq'. now apply Hall. }
  assert (Eh : map2 (fun sq m => compute_qmodel_hyperparams c (fst sq) m (snd (fst (snd (snd sq))))
                                    (snd (snd (snd sq))) fm) (zip (repeat s n) qs) (repeat M n)
               = repeat (compute_qmodel_hyperparams c s M cc b fm) n).
  { rewrite map2_const_r by (rewrite zip_length_eq; rewrite repeat_length; auto).
    transitivity (repeat (compute_qmodel_hyperparams c s M cc b fm) (length (zip (repeat s n) qs))).
    - apply map_all_eq. intros [s' q] Hin. cbn [fst snd].
      destruct (in_zip _ _ _ _ Hin) as [Hs' Hq']. apply repeat_spec in Hs'.
      subst s'. destruct (Hall q Hq') as (_ & -> & ->). reflexivity.
    - rewrite zip_length_eq; rewrite repeat_length; auto. }
  rewrite Eh, Ef. rewrite !map_repeat, !sync1_repeat, !zip_repeat, map2_repeat, map_repeat by exact Hn.
  rewrite num_vars_repeat, velocities_r. cbn [fst snd each2].
  unfold after_qmodel. fold fm.
  destruct (compute_qmodel_hyperparams c s M cc b fm) as [[alpha mu] change]. cbn [fst snd].
  destruct (update_velocities _ mu (- alpha) pg) as [vel raw]. cbn [fst snd].
  now rewrite map2_repeat.
Qed.

(** The part that does not depend on the product with the curvature's factor *)
Lemma qmodel_same c x y s g q q' :
  x_precond x = x_precond y ->
  get_qmodel_quantities c x s g = Ok q -> get_qmodel_quantities c y s g = Ok q' ->
  fst q = fst q' /\ snd (fst (snd q)) = snd (fst (snd q')) /\ snd (snd q) = snd (snd q').
Proof.
  intros Hp. unfold get_qmodel_quantities, compute_qmodel. rewrite Hp. set (pg := x_precond y g).
  set (pv := compute_prev_updates s (map snd g)).
  intros H H'.
  repeat match type of H with
  | bind (bind ?r _) _ = _ => destruct r eqn:?; cbn [bind] in H, H'; [|discriminate H]
  end.
  all: repeat match type of H with
  | bind ?r _ = _ => destruct r eqn:?; cbn [bind] in H, H'; try discriminate H
  end.
  all: repeat match type of H' with
  | bind (bind ?r _) _ = _ => destruct r eqn:?; cbn [bind] in H'; [|discriminate H']
  end.
  all: injection H as <-; injection H' as <-; cbn [fst snd]; auto.
Qed.

(** * apply_gradients *)

Definition after_raw (c : cfg) (x : ctx) (rs : pairs * st) : st :=
  let '(raw, s2) := rs in
  let raw' := if c_use_wd c then add_weight_decay c s2 raw else raw in
  let s3 := set_params (descend (c_lr c) (s_params s2) raw') s2 in
  let s4 := maybe_post_update_adapt_damping c x s3 in
  set_counter (s_counter s4 + 1) s4.

Lemma divided_and_summed (raw : pairs) :
  zip (total (map (map fst) (map (map (fun uv => (vscale (/ INR n) (fst uv), snd uv))) (repeat raw n))))
      (map snd raw) = raw.
Proof.
  rewrite !map_repeat, total_repeat by exact Hn. unfold sprod.
  rewrite !map_map. cbn [fst].
  rewrite (map_ext _ fst).
  - apply zip_fst_snd.
  - intros [u v]. cbn [fst]. rewrite vscale_vscale, Rinv_r, vscale_1; [reflexivity|]. now apply INR_pos.
Qed.

Lemma apply_after c xs x s g r :
  agree n xs x ->
  compute_raw_update_steps_r k c xs (repeat (maybe_update_prev_loss c x s) n) (repeat g n) = each2 n r ->
  apply_gradients_r k c xs (repeat s n) (repeat g n)
  = on_each n (do rs <- r ; Ok (after_raw c x rs)).
Proof.
  intros Ha Hr. unfold apply_gradients_r. rewrite (prev_loss_r c xs x s Ha), Hr.
  destruct r as [[raw s2]|e]; [|reflexivity]. cbn [each2 bind].
  set (raws' := if c_use_wd c then _ else _).
  set (raw' := if c_use_wd c then add_weight_decay c s2 raw else raw).
  assert (E : raws' = repeat raw' n).
  { unfold raws', raw'. destruct (c_use_wd c); [now rewrite map2_repeat|reflexivity]. }
  rewrite E.
  match goal with |- bind ?a _ = _ => assert (Ea : a = Ok (repeat raw' n)) end.
  { pose proof Hk as (_ & _ & Hs & _). unfold has_strategy, num_in_sync.
    destruct (strategy k) as [[kd m]|]; [|reflexivity]. destruct Hs as [-> Hi]. rewrite Hi. simpl.
    f_equal. rewrite map_repeat. f_equal. apply divided_and_summed. }
  rewrite Ea. cbn [bind on_each]. rewrite map2_repeat, (post_damping_r c xs x _ Ha), map_repeat.
  reflexivity.
Qed.

Lemma apply_single c x s g :
  apply_gradients c x s g =
  (do rs <- compute_raw_update_steps c x (maybe_update_prev_loss c x s) g ; Ok (after_raw c x rs)).
Proof.
  unfold apply_gradients, after_raw.
  destruct (compute_raw_update_steps c x (maybe_update_prev_loss c x s) g) as [[raw s2]|e]; reflexivity.
Qed.
End Step.
