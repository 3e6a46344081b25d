(** One call of apply_gradients. *)
From Coq Require Import List Arith Bool Reals Lra Lia.
From Verif.Base Require Import Py.
From Verif.Train Require Import Model Spec VecProofs CtorProofs.
Import ListNotations.
Open Scope list_scope.
Open Scope R_scope.

(* ------------------------------------------------------------------------ *)
(** * Slots *)

Lemma upd_same f k v : upd f k v k = v.
Proof. unfold upd. rewrite Nat.eqb_refl. reflexivity. Qed.
Lemma upd_other f k v j : j <> k -> upd f k v j = f j.
Proof. intros H. unfold upd. destruct (Nat.eqb_spec j k); [contradiction|reflexivity]. Qed.

Lemma entry_of_notin k j l : ~ In k (map snd l) -> entry_of k j l = 0.
Proof.
  induction l as [|[v k'] l IH]; simpl; intros H; [reflexivity|].
  destruct (Nat.eqb_spec k' k); [exfalso; apply H; auto|]. apply IH. tauto.
Qed.

Lemma fits_cons f v k l :
  fits f ((v, k) :: l) <-> ~ In k (map snd l) /\ length v = length (f k) /\ fits f l.
Proof.
  unfold fits. cbn [map snd]. split.
  - intros [N H]. inversion N; subst.
    split; [assumption|]. split; [apply H; left; reflexivity|]. split; [assumption|].
    intros w k' I. apply H. right; exact I.
  - intros [N [L [N' H]]]. split; [constructor; assumption|].
    intros w k' [E|I]; [injection E as <- <-; exact L|apply H, I].
Qed.

Lemma fits_upd f k v l : ~ In k (map snd l) -> (fits (upd f k v) l <-> fits f l).
Proof.
  intros N. unfold fits. split; intros [D H]; (split; [exact D|]); intros w k' I;
    assert (k' <> k) by (intros ->; apply N; apply (in_map snd _ _ I));
    specialize (H w k' I); rewrite upd_other in *; auto.
Qed.

Lemma fits_ext f f' l : (forall k, length (f k) = length (f' k)) -> fits f l -> fits f' l.
Proof. intros E [D H]. split; [exact D|]. intros v k I. rewrite <- E. apply H, I. Qed.

(** Same variables, same shapes. *)
Lemma fits_same f l : forall l', map snd l' = map snd l -> same_shape (map fst l') (map fst l) ->
  fits f l -> fits f l'.
Proof.
  intros l' V S [D H]. split; [rewrite V; exact D|]. clear D.
  revert l V S H. induction l' as [|[v k] l' IH]; intros [|[w k'] l] V S H; try discriminate V.
  - intros v k [].
  - cbn [map snd] in V. injection V as V1 V2.
    cbn [map fst] in S. apply same_shape_cons in S. destruct S as [S1 S2].
    intros u m [E|I].
    + injection E as <- <-. rewrite S1, V1. apply H. left; reflexivity.
    + apply (IH l V2 S2); [|exact I]. intros; apply H; right; assumption.
Qed.

Lemma update_velocities_spec decay coeff l : forall vel, fits vel l ->
  let r := update_velocities vel decay coeff l in
  map snd (snd r) = map snd l /\
  same_shape (map fst (snd r)) (map fst l) /\
  (forall k, length (fst r k) = length (vel k)) /\
  (forall k, ~ In k (map snd l) -> fst r k = vel k) /\
  (forall k j, In k (map snd l) ->
     coord j (fst r k) = decay * coord j (vel k) + coeff * entry_of k j l) /\
  (forall k j, In k (map snd l) -> entry_of k j (snd r) = coord j (fst r k)).
Proof.
  induction l as [|[v k0] l IH]; intros vel F.
  - cbn. repeat split; intros; try reflexivity; contradiction.
  - apply fits_cons in F. destruct F as [N [L F]].
    set (nv := vadd (vscale decay (vel k0)) (vscale coeff v)).
    assert (Lnv : length nv = length (vel k0)).
    { unfold nv. rewrite vadd_length; rewrite !vscale_length; congruence. }
    specialize (IH (upd vel k0 nv) (proj2 (fits_upd _ _ _ _ N) F)).
    cbn [update_velocities]. fold nv.
    destruct (update_velocities (upd vel k0 nv) decay coeff l) as [vel' out] eqn:E.
    cbn [fst snd] in *. destruct IH as [I1 [I2 [I3 [I4 [I5 I6]]]]].
    assert (K0 : vel' k0 = nv) by (rewrite (I4 k0 N); apply upd_same).
    repeat split.
    + cbn [map snd]. rewrite I1. reflexivity.
    + cbn [map fst]. apply same_shape_cons. split; [congruence|exact I2].
    + intros k. rewrite I3. destruct (Nat.eq_dec k k0) as [->|D].
      * rewrite upd_same. exact Lnv.
      * rewrite upd_other by exact D. reflexivity.
    + intros k H. cbn [map snd In] in H. rewrite I4 by tauto. apply upd_other. intros ->; tauto.
    + intros k j H. cbn [entry_of]. destruct (Nat.eqb_spec k0 k) as [<-|D].
      * rewrite K0. unfold nv. rewrite coord_vadd; rewrite ?vscale_length; try congruence.
        rewrite !coord_vscale. reflexivity.
      * destruct H as [H|H]; [cbn in H; congruence|]. rewrite (I5 k j H).
        rewrite upd_other by congruence. reflexivity.
    + intros k j H. cbn [entry_of]. destruct (Nat.eqb_spec k0 k) as [<-|D].
      * rewrite K0. reflexivity.
      * destruct H as [H|H]; [cbn in H; congruence|]. apply I6, H.
Qed.

Lemma descend_spec lr l : forall params, fits params l ->
  let r := descend lr params l in
  (forall k, length (r k) = length (params k)) /\
  (forall k, ~ In k (map snd l) -> r k = params k) /\
  (forall k j, In k (map snd l) -> coord j (r k) = coord j (params k) - lr * entry_of k j l).
Proof.
  induction l as [|[v k0] l IH]; intros params F.
  - cbn. repeat split; intros; try reflexivity; contradiction.
  - apply fits_cons in F. destruct F as [N [L F]].
    set (nv := vadd (params k0) (vscale (- lr) v)).
    assert (Lnv : length nv = length (params k0)).
    { unfold nv. rewrite vadd_length; rewrite ?vscale_length; congruence. }
    specialize (IH (upd params k0 nv) (proj2 (fits_upd _ _ _ _ N) F)).
    cbn [descend]. fold nv. cbv zeta. destruct IH as [I1 [I2 I3]].
    assert (K0 : descend lr (upd params k0 nv) l k0 = nv) by (rewrite (I2 k0 N); apply upd_same).
    repeat split.
    + intros k. rewrite I1. destruct (Nat.eq_dec k k0) as [->|D].
      * rewrite upd_same. exact Lnv.
      * rewrite upd_other by exact D. reflexivity.
    + intros k H. cbn [map snd In] in H. rewrite I2 by tauto. apply upd_other. intros ->; tauto.
    + intros k j H. cbn [entry_of]. destruct (Nat.eqb_spec k0 k) as [<-|D].
      * rewrite K0. unfold nv. rewrite coord_vadd; rewrite ?vscale_length; try congruence.
        rewrite !coord_vscale. lra.
      * destruct H as [H|H]; [cbn in H; congruence|]. rewrite (I3 k j H).
        rewrite upd_other by congruence. reflexivity.
Qed.

(* ------------------------------------------------------------------------ *)
(** * Clipping *)

Lemma map_pair_sprod a l :
  map (fun p : vec * nat => (map (Rmult a) (fst p), snd p)) l = sprod_p a l.
Proof. reflexivity. Qed.

Lemma maybe_clip_direction c g pg :
  map snd pg = map snd g -> same_shape (map fst pg) (map fst g) -> g <> [] ->
  maybe_clip c g pg = Ok (direction c g pg).
Proof.
  intros V S N. unfold maybe_clip, direction. destruct (c_norm c) as [nc|]; [|reflexivity].
  unfold clip_updates, update_clip_coeff.
  rewrite ip_p_inner by (auto using same_shape_sym). cbn [bind].
  unfold clip_factor. rewrite (Rmult_comm (c_lr c ^ 2)). reflexivity.
Qed.

Lemma direction_shape c g pg :
  map snd (direction c g pg) = map snd pg /\ same_shape (map fst (direction c g pg)) (map fst pg).
Proof.
  unfold direction. destruct (c_norm c) as [nc|]; [|split; reflexivity].
  rewrite map_pair_sprod. split; [apply sprod_p_snd|]. rewrite sprod_p_fst. apply sprod_shape.
Qed.

Lemma clip_factor_spec nc lr q : 0 < nc -> 0 <= q ->
  let s := clip_factor nc lr q in
  0 < s <= 1 /\ lr ^ 2 * s ^ 2 * q <= nc /\
  (lr ^ 2 * q <= nc -> s = 1) /\ (nc <= lr ^ 2 * q -> lr ^ 2 * s ^ 2 * q = nc).
Proof.
  intros C Q. unfold clip_factor. destruct (Req_EM_T (lr ^ 2 * q) 0) as [Z|Z].
  - repeat split; try lra; intros; nra.
  - assert (P : 0 < lr ^ 2 * q).
    { assert (0 <= lr ^ 2) by nra. assert (0 <= lr ^ 2 * q) by nra. lra. }
    set (u := lr ^ 2 * q) in *.
    assert (Pd : 0 < nc / u) by (apply Rdiv_lt_0_compat; assumption).
    assert (Sq : sqrt (nc / u) * sqrt (nc / u) = nc / u) by (apply sqrt_sqrt; lra).
    assert (Sp : 0 < sqrt (nc / u)) by (apply sqrt_lt_R0, Pd).
    assert (Rw : forall s, lr ^ 2 * s ^ 2 * q = u * (s * s)) by (intros; unfold u; ring).
    assert (E : u * (nc / u) = nc) by (field; exact Z).
    set (r := sqrt (nc / u)) in *. cbv zeta. rewrite !Rw.
    unfold Rmin. destruct (Rle_dec 1 r) as [L|L].
    + repeat split; try lra.
      * assert (1 <= r * r) by nra. nra.
      * intros H. assert (1 <= r * r) by nra. nra.
    + assert (r * r < 1) by nra.
      repeat split; try lra.
      * rewrite Sq, E. lra.
      * intros H'. exfalso. assert (u * (r * r) = nc) by (rewrite Sq; exact E). nra.
      * intros _. rewrite Sq. exact E.
Qed.

(* ------------------------------------------------------------------------ *)
(** * The stages of a call *)

Definition is_time (c : cfg) (s : st) : bool :=
  Nat.eqb (Nat.modulo (s_counter s + 1) (c_interval c)) 0.

Lemma prev_loss_stage c x s :
  let s1 := maybe_update_prev_loss c x s in
  s_params s1 = s_params s /\ s_vel s1 = s_vel s /\ s_damping s1 = s_damping s /\
  s_rho s1 = s_rho s /\ s_qchange s1 = s_qchange s /\ s_counter s1 = s_counter s /\
  s_prev_loss s1 = if c_adapt c && is_time c s
                   then Some (if c_passed c then x_loss x else x_loss_fn x (s_params s))
                   else s_prev_loss s.
Proof.
  unfold maybe_update_prev_loss, is_adaptation_time, is_time.
  destruct (c_adapt c); [|repeat split]. cbn [andb].
  destruct (Nat.eqb _ _); repeat split.
Qed.

Lemma update_damping_frame c x s :
  let s' := update_damping c x s in
  s_params s' = s_params s /\ s_vel s' = s_vel s /\ s_prev_loss s' = s_prev_loss s /\
  s_qchange s' = s_qchange s /\ s_counter s' = s_counter s.
Proof. repeat split. Qed.

Lemma well_shaped_frame s s1 g :
  s_params s1 = s_params s -> s_vel s1 = s_vel s -> well_shaped s g -> well_shaped s1 g.
Proof. unfold well_shaped. intros -> ->. exact (fun H => H). Qed.

(** From the raw updates to the new state. *)
Lemma apply_of_raw c x s g raw s2 :
  compute_raw_update_steps c x (maybe_update_prev_loss c x s) g = Ok (raw, s2) ->
  exists s', apply_gradients c x s g = Ok s' /\
    s_params s' = descend (c_lr c) (s_params s2)
                    (if c_use_wd c then add_weight_decay c s2 raw else raw) /\
    s_vel s' = s_vel s2 /\ s_prev_loss s' = s_prev_loss s2 /\ s_qchange s' = s_qchange s2 /\
    s_counter s' = S (s_counter s2) /\
    (if c_immediate c && c_adapt c && is_time c s2
     then s_damping s' = s_damping (update_damping c x (set_params (s_params s') s2))
          /\ s_rho s' = s_rho (update_damping c x (set_params (s_params s') s2))
     else s_damping s' = s_damping s2 /\ s_rho s' = s_rho s2).
Proof.
  intros E. unfold apply_gradients. rewrite E. cbn [bind].
  eexists. split; [reflexivity|].
  unfold maybe_post_update_adapt_damping, is_adaptation_time.
  cbn [s_counter set_params]. fold (is_time c s2).
  destruct (c_immediate c), (c_adapt c); cbn [negb orb andb];
    try (destruct (is_time c s2)); cbn; repeat split; rewrite ?Nat.add_1_r; reflexivity.
Qed.

Lemma entry_of_wd c s k j l : fits (s_params s) l -> In k (map snd l) ->
  entry_of k j (add_weight_decay c s l) = entry_of k j l + c_wd c * coord j (s_params s k).
Proof.
  induction l as [|[v k0] l IH]; intros F I; [contradiction|].
  apply fits_cons in F. destruct F as [N [L F]].
  cbn [add_weight_decay map entry_of fst snd]. destruct (Nat.eqb_spec k0 k) as [<-|D].
  - rewrite coord_vadd; rewrite ?vscale_length; try congruence. rewrite coord_vscale. reflexivity.
  - destruct I as [I|I]; [cbn in I; congruence|]. apply IH; assumption.
Qed.
Lemma wd_snd c s l : map snd (add_weight_decay c s l) = map snd l.
Proof. unfold add_weight_decay. rewrite map_map. reflexivity. Qed.
Lemma wd_fits c s l : fits (s_params s) l -> fits (s_params s) (add_weight_decay c s l).
Proof.
  intros [D H]. split; [rewrite wd_snd; exact D|].
  intros v k I. unfold add_weight_decay in I. apply in_map_iff in I.
  destruct I as [[w k'] [E I]]. injection E as <- <-. cbn [fst snd]. specialize (H w k' I).
  rewrite vadd_length; rewrite ?vscale_length; congruence.
Qed.

(** The parameter part of a call, given raw updates that fit. *)
Lemma apply_params c s2 raw :
  fits (s_params s2) raw ->
  let p' := descend (c_lr c) (s_params s2)
              (if c_use_wd c then add_weight_decay c s2 raw else raw) in
  (forall k, length (p' k) = length (s_params s2 k)) /\
  (forall k, ~ In k (map snd raw) -> p' k = s_params s2 k) /\
  (forall k j, In k (map snd raw) ->
     coord j (p' k) = coord j (s_params s2 k)
       - c_lr c * (entry_of k j raw + if c_use_wd c then c_wd c * coord j (s_params s2 k) else 0)).
Proof.
  intros F p'. unfold p'. destruct (c_use_wd c).
  - pose proof (descend_spec (c_lr c) _ _ (wd_fits c s2 raw F)) as [A [B C]].
    rewrite wd_snd in *. repeat split; auto.
    intros k j I. rewrite (C k j I), (entry_of_wd c s2 k j raw F I). reflexivity.
  - pose proof (descend_spec (c_lr c) _ _ F) as [A [B C]]. repeat split; auto.
    intros k j I. rewrite (C k j I). f_equal. f_equal. lra.
Qed.

(* ------------------------------------------------------------------------ *)
(** * Regular momentum *)

(** The prediction that the regular mode records. *)
Definition approx_change (c : cfg) (x : ctx) (damping : R) (u g : pairs) : R :=
  (if c_incl c then 1/2 * inner (map fst u) (map fst (x_mult x u))
   else 1/2 * inner (map fst u) (map fst (x_mult x u))
        - (1 - c_l2 c / damping) * (1/2) * damping * inner (map fst u) (map fst u))
  + inner (map fst u) (map fst g).

Lemma approx_change_ok c x s u g :
  shape_preserving (x_mult x) -> map snd u = map snd g ->
  same_shape (map fst u) (map fst g) -> u <> [] ->
  compute_approx_qmodel_change c x s u g = Ok (approx_change c x (s_damping s) u g).
Proof.
  intros M V S N. unfold compute_approx_qmodel_change, approx_change, sub_damping_coeff.
  destruct (M u) as [M1 M2].
  rewrite ip_p_inner by (auto using same_shape_sym). cbn [bind].
  destruct (c_incl c); cbn [bind].
  - rewrite ip_p_inner by auto. reflexivity.
  - rewrite (ip_p_inner u u) by (auto using same_shape_refl). cbn [bind].
    rewrite ip_p_inner by auto. reflexivity.
Qed.

Lemma map_snd_nil (l l' : pairs) : map snd l = map snd l' -> l' <> [] -> l <> [].
Proof. intros E N ->. destruct l'; [congruence|discriminate]. Qed.

Lemma regular_raw c x s g :
  c_mtype c = Regular -> well_shaped s g -> shape_preserving (x_precond x) ->
  shape_preserving (x_mult x) ->
  let dir := direction c g (x_precond x g) in
  let r := update_velocities (s_vel s) (c_momentum c) 1 dir in
  compute_raw_update_steps c x s g =
  Ok (snd r, (if c_adapt c && c_chief c && is_time c s
              then set_qchange (Some (approx_change c x (s_damping s) (sprod_p (-1 * c_lr c) (snd r)) g))
                     (set_vel (fst r) s)
              else set_vel (fst r) s)).
Proof.
  intros T [N [F L]] P M dir r. unfold compute_raw_update_steps. rewrite T.
  destruct (P g) as [P1 P2].
  rewrite (maybe_clip_direction c g _ P1 P2 N). cbn [bind]. fold dir.
  destruct (direction_shape c g (x_precond x g)) as [D1 D2]. fold dir in D1, D2.
  assert (Fd : fits (s_vel s) dir).
  { apply (fits_same _ g); [congruence|eapply same_shape_trans; eauto|exact F]. }
  pose proof (update_velocities_spec (c_momentum c) 1 dir (s_vel s) Fd) as U. cbv zeta in U. fold r in U.
  destruct U as [U1 [U2 [U3 [U4 [U5 U6]]]]].
  fold r. destruct r as [vel raw]. cbn [fst snd] in *.
  destruct (c_adapt c && c_chief c); cbn [andb]; [|reflexivity].
  unfold maybe_update_qmodel_change, is_adaptation_time. cbn [s_counter set_vel].
  fold (is_time c s). destruct (is_time c s); [|reflexivity].
  rewrite approx_change_ok; [reflexivity|exact M| | |].
  - rewrite sprod_p_snd. congruence.
  - rewrite sprod_p_fst. eapply same_shape_trans; [apply sprod_shape|].
    eapply same_shape_trans; [exact U2|]. eapply same_shape_trans; eauto.
  - apply (map_snd_nil _ g); [rewrite sprod_p_snd; congruence|exact N].
Qed.

(** Everything a regular step does. *)
Lemma regular_step c x s g :
  c_mtype c = Regular -> well_shaped s g -> shape_preserving (x_precond x) ->
  shape_preserving (x_mult x) ->
  exists s', apply_gradients c x s g = Ok s' /\
  s_counter s' = S (s_counter s) /\
  (forall k, length (s_vel s' k) = length (s_vel s k)) /\
  (forall k, length (s_params s' k) = length (s_params s k)) /\
  (forall k, ~ In k (map snd g) -> s_vel s' k = s_vel s k /\ s_params s' k = s_params s k) /\
  (forall k j, In k (map snd g) ->
     coord j (s_vel s' k) = c_momentum c * coord j (s_vel s k)
                            + entry_of k j (direction c g (x_precond x g)) /\
     coord j (s_params s' k) = coord j (s_params s k)
       - c_lr c * (coord j (s_vel s' k)
                   + if c_use_wd c then c_wd c * coord j (s_params s k) else 0)).
Proof.
  intros T W P M.
  destruct (prev_loss_stage c x s) as [E1 [E2 [E3 [E4 [E5 [E6 E7]]]]]].
  set (s1 := maybe_update_prev_loss c x s) in *.
  pose proof (well_shaped_frame s s1 g E1 E2 W) as W1.
  pose proof (regular_raw c x s1 g T W1 P M) as R. cbv zeta in R.
  destruct W as [N [F L]]. destruct (P g) as [P1 P2].
  destruct (direction_shape c g (x_precond x g)) as [D1 D2].
  set (dir := direction c g (x_precond x g)) in *.
  assert (Fd : fits (s_vel s1) dir).
  { apply (fits_same _ g); [congruence|eapply same_shape_trans; eauto|rewrite E2; exact F]. }
  pose proof (update_velocities_spec (c_momentum c) 1 dir (s_vel s1) Fd) as U. cbv zeta in U.
  set (r := update_velocities (s_vel s1) (c_momentum c) 1 dir) in *.
  destruct U as [U1 [U2 [U3 [U4 [U5 U6]]]]].
  destruct (apply_of_raw c x s g _ _ R) as [s' [A [A1 [A2 [A3 [A4 [A5 A6]]]]]]].
  clear A6. exists s'. split; [exact A|].
  match type of A1 with context[descend _ (s_params ?z) _] => set (s2 := z) in * end.
  assert (V2 : s_vel s2 = fst r) by (unfold s2; destruct (_ && _ && _); reflexivity).
  assert (P2' : s_params s2 = s_params s) by (unfold s2; destruct (_ && _ && _); exact E1).
  assert (C2 : s_counter s2 = s_counter s) by (unfold s2; destruct (_ && _ && _); exact E6).
  assert (Fr : fits (s_params s2) (snd r)).
  { rewrite P2'. apply (fits_ext (s_vel s)); [exact L|].
    apply (fits_same _ g); [congruence| |exact F].
    eapply same_shape_trans; [exact U2|]. eapply same_shape_trans; eauto. }
  pose proof (apply_params c s2 (snd r) Fr) as Q. cbv zeta in Q. rewrite <- A1 in Q.
  destruct Q as [Q1 [Q2 Q3]]. rewrite P2', U1, D1, P1 in *. rewrite V2 in A2.
  repeat split.
  - rewrite A5, C2. reflexivity.
  - intros k. rewrite A2, U3, E2. reflexivity.
  - exact Q1.
  - rewrite A2, (U4 k), E2; [reflexivity|]. exact H.
  - apply Q2, H.
  - rewrite A2, U5, E2; [lra|]. exact H.
  - rewrite (Q3 k j H), A2, U6; [reflexivity|]. exact H.
Qed.

(* ------------------------------------------------------------------------ *)
(** * Adam mode *)

Lemma adam_raw c x s g :
  c_mtype c = Adam -> well_shaped s g -> shape_preserving (x_precond x) ->
  let r := update_velocities (s_vel s) (c_momentum c) 1 g in
  let dir := direction c (snd r) (x_precond x (snd r)) in
  compute_raw_update_steps c x s g =
  Ok (dir, (if c_adapt c && c_chief c && is_time c s
            then set_qchange (Some (1/2 * c_lr c ^ 2 * inner (map fst dir) (map fst (snd r))
                                    - c_lr c * inner (map fst dir) (map fst g)))
                     (set_vel (fst r) s)
            else set_vel (fst r) s)).
Proof.
  intros T [N [F L]] P r dir. unfold compute_raw_update_steps. rewrite T.
  pose proof (update_velocities_spec (c_momentum c) 1 g (s_vel s) F) as U. cbv zeta in U. fold r in U.
  destruct U as [U1 [U2 [U3 [U4 [U5 U6]]]]].
  fold r. unfold dir. destruct r as [vel vels]. cbn [fst snd] in *.
  destruct (P vels) as [P1 P2].
  assert (Nv : vels <> []) by (apply (map_snd_nil _ g); assumption).
  rewrite (maybe_clip_direction c vels _ P1 P2 Nv). cbn [bind].
  destruct (direction_shape c vels (x_precond x vels)) as [D1 D2].
  set (d := direction c vels (x_precond x vels)) in *.
  destruct (c_adapt c && c_chief c); cbn [andb]; [|reflexivity].
  unfold maybe_update_qmodel_change, is_adaptation_time. cbn [s_counter set_vel].
  fold (is_time c s). destruct (is_time c s); [|reflexivity].
  assert (Nd : d <> []) by (apply (map_snd_nil _ vels); [congruence|assumption]).
  rewrite ip_p_inner; [|congruence|eapply same_shape_trans; eauto|exact Nd]. cbn [bind].
  rewrite ip_p_inner; [reflexivity|congruence| |exact Nd].
  eapply same_shape_trans; [exact D2|]. eapply same_shape_trans; eauto.
Qed.


Lemma velocities_out decay coeff l : forall vel, NoDup (map snd l) ->
  snd (update_velocities vel decay coeff l)
  = map (fun k => (fst (update_velocities vel decay coeff l) k, k)) (map snd l).
Proof.
  induction l as [|[v k0] l IH]; intros vel D; [reflexivity|].
  cbn [map snd] in D. inversion D as [|? ? N D']; subst.
  cbn [update_velocities].
  set (nv := vadd (vscale decay (vel k0)) (vscale coeff v)).
  specialize (IH (upd vel k0 nv) D').
  assert (K0 : fst (update_velocities (upd vel k0 nv) decay coeff l) k0 = nv).
  { clear IH D D'. assert (G : forall l f, ~ In k0 (map snd l) ->
      fst (update_velocities f decay coeff l) k0 = f k0).
    { clear. induction l as [|[w k1] l IH]; intros f N; [reflexivity|].
      cbn [map snd In] in N. cbn [update_velocities].
      match goal with |- context[update_velocities (upd f k1 ?z) _ _ _] =>
        specialize (IH (upd f k1 z)); destruct (update_velocities (upd f k1 z) decay coeff l) end.
      cbn [fst] in *. rewrite IH by tauto. apply upd_other. intros ->; tauto. }
    rewrite G by exact N. apply upd_same. }
  destruct (update_velocities (upd vel k0 nv) decay coeff l) as [vel' out] eqn:E.
  cbn [fst snd map] in *. rewrite K0, <- IH. reflexivity.
Qed.

Lemma adam_step c x s g :
  c_mtype c = Adam -> well_shaped s g -> shape_preserving (x_precond x) ->
  exists s', apply_gradients c x s g = Ok s' /\
  s_counter s' = S (s_counter s) /\
  (forall k, length (s_vel s' k) = length (s_vel s k)) /\
  (forall k, length (s_params s' k) = length (s_params s k)) /\
  (forall k, ~ In k (map snd g) -> s_vel s' k = s_vel s k /\ s_params s' k = s_params s k) /\
  (forall k j, In k (map snd g) ->
     coord j (s_vel s' k) = c_momentum c * coord j (s_vel s k) + entry_of k j g /\
     coord j (s_params s' k) = coord j (s_params s k)
       - c_lr c * (entry_of k j (direction c (velocity_pairs s' (map snd g))
                                   (x_precond x (velocity_pairs s' (map snd g))))
                   + if c_use_wd c then c_wd c * coord j (s_params s k) else 0)).
Proof.
  intros T W P.
  destruct (prev_loss_stage c x s) as [E1 [E2 [E3 [E4 [E5 [E6 E7]]]]]].
  set (s1 := maybe_update_prev_loss c x s) in *.
  pose proof (well_shaped_frame s s1 g E1 E2 W) as W1.
  pose proof (adam_raw c x s1 g T W1 P) as R. cbv zeta in R.
  destruct W as [N [F L]].
  assert (Fv : fits (s_vel s1) g) by (rewrite E2; exact F).
  pose proof (update_velocities_spec (c_momentum c) 1 g (s_vel s1) Fv) as U. cbv zeta in U.
  pose proof (velocities_out (c_momentum c) 1 g (s_vel s1) (proj1 F)) as VO.
  set (r := update_velocities (s_vel s1) (c_momentum c) 1 g) in *.
  destruct U as [U1 [U2 [U3 [U4 [U5 U6]]]]].
  destruct (P (snd r)) as [P1 P2].
  destruct (direction_shape c (snd r) (x_precond x (snd r))) as [D1 D2].
  set (dir := direction c (snd r) (x_precond x (snd r))) in *.
  destruct (apply_of_raw c x s g _ _ R) as [s' [A [A1 [A2 [A3 [A4 [A5 A6]]]]]]].
  clear A6. exists s'. split; [exact A|].
  match type of A1 with context[descend _ (s_params ?z) _] => set (s2 := z) in * end.
  assert (V2 : s_vel s2 = fst r) by (unfold s2; destruct (_ && _ && _); reflexivity).
  assert (P2' : s_params s2 = s_params s) by (unfold s2; destruct (_ && _ && _); exact E1).
  assert (C2 : s_counter s2 = s_counter s) by (unfold s2; destruct (_ && _ && _); exact E6).
  assert (Fr : fits (s_params s2) dir).
  { rewrite P2'. apply (fits_ext (s_vel s)); [exact L|].
    apply (fits_same _ g); [congruence| |exact F].
    eapply same_shape_trans; [exact D2|]. eapply same_shape_trans; eauto. }
  pose proof (apply_params c s2 dir Fr) as Q. cbv zeta in Q. rewrite <- A1 in Q.
  destruct Q as [Q1 [Q2 Q3]]. rewrite P2', D1, P1, U1 in *. rewrite V2 in A2.
  assert (VP : velocity_pairs s' (map snd g) = snd r).
  { unfold velocity_pairs. rewrite A2. symmetry. exact VO. }
  repeat split.
  - rewrite A5, C2. reflexivity.
  - intros k. rewrite A2, U3, E2. reflexivity.
  - exact Q1.
  - rewrite A2, (U4 k), E2; [reflexivity|]. exact H.
  - apply Q2, H.
  - rewrite A2, U5, E2; [lra|]. exact H.
  - rewrite (Q3 k j H), VP. reflexivity.
Qed.
