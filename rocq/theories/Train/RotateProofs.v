(** Training in other coordinates: proofs for C121. *)
From Coq Require Import List Arith Bool Reals Lra Lia FunctionalExtensionality.
From Verif.Base Require Import Py.
From Verif.Tensors Require Import Model.
From Verif.Train Require Import Model Spec VecProofs UnitsProofs RotateSpec.
Import ListNotations.
Open Scope list_scope.
Open Scope R_scope.

(* ------------------------------------------------------------------------ *)
Section Step.
Variable P : nat -> vec -> vec -> Prop.
Hypothesis ISO : isometric P.
Notation SP := (same_pairs P).
Notation SS := (same_state P).

Lemma iso_scale j a v v' : P j v v' -> P j (vscale a v) (vscale a v').
Proof. apply ISO. Qed.
Lemma iso_add j v v' w w' : P j v v' -> P j w w' -> P j (vadd v w) (vadd v' w').
Proof. apply ISO. Qed.
Lemma iso_dot j v v' w w' : P j v v' -> P j w w' -> dot v' w' = dot v w.
Proof. apply ISO. Qed.

Lemma sp_snd l l' : SP l l' -> map snd l' = map snd l.
Proof. intros F. induction F as [|p q l l' [E _] F IH]; [reflexivity|]. cbn. congruence. Qed.
Lemma sp_scale a l l' : SP l l' -> SP (sprod_p a l) (sprod_p a l').
Proof.
  intros F. induction F as [|p q l l' [E H] F IH]; [constructor|].
  constructor; [|exact IH]. cbn [fst snd]. split; [exact E|apply iso_scale, H].
Qed.

Lemma match_snd (a b : pairs) :
  check_match a b = forallb (fun p => Nat.eqb (fst p) (snd p)) (zip (map snd a) (map snd b)).
Proof.
  revert b. unfold check_match. induction a as [|x a IH]; intros [|y b]; try reflexivity.
  cbn [zip map forallb fst snd]. rewrite IH. reflexivity.
Qed.
Lemma match_sym (a b : pairs) : check_match a b = check_match b a.
Proof.
  revert b. unfold check_match. induction a as [|x a IH]; intros [|y b]; try reflexivity.
  cbn [zip forallb fst snd]. rewrite IH, Nat.eqb_sym. reflexivity.
Qed.
Lemma match_ext (a a' b b' : pairs) : map snd a' = map snd a -> map snd b' = map snd b ->
  check_match a' b' = check_match a b.
Proof. intros A B. rewrite !match_snd, A, B. reflexivity. Qed.

Lemma match_refl (a : pairs) : check_match a a = true.
Proof.
  unfold check_match. induction a as [|x a IH]; [reflexivity|]. cbn [zip forallb fst snd].
  rewrite Nat.eqb_refl. exact IH.
Qed.

Lemma ip_same l1 l1' l2 l2' : SP l1 l1' -> SP l2 l2' -> check_match l1 l2 = true ->
  ip (map fst l1') (map fst l2') = ip (map fst l1) (map fst l2).
Proof.
  intros F G M. unfold ip.
  assert (Q : map (fun p => dot (fst p) (snd p)) (zip (map fst l1') (map fst l2'))
            = map (fun p => dot (fst p) (snd p)) (zip (map fst l1) (map fst l2))).
  { revert l2 l2' G M. induction F as [|p q l1 l1' [E H] F IH]; intros l2 l2' G M; [reflexivity|].
    destruct G as [|p2 q2 l2 l2' [E2 H2] G]; [reflexivity|].
    cbn [check_match] in M. unfold check_match in M. cbn [zip forallb fst snd] in M.
    apply andb_true_iff in M. destruct M as [M1 M2]. apply Nat.eqb_eq in M1.
    cbn [zip map fst snd]. rewrite (IH _ _ G M2). f_equal. rewrite <- M1 in H2.
    exact (iso_dot _ _ _ _ _ H H2). }
  destruct (zip (map fst l1') (map fst l2')) as [|x' z'] eqn:Z', (zip (map fst l1) (map fst l2)) as [|x z] eqn:Z;
    try discriminate Q; [reflexivity|]. rewrite Q. reflexivity.
Qed.
Lemma ip_p_same l1 l1' l2 l2' : SP l1 l1' -> SP l2 l2' -> ip_p l1' l2' = ip_p l1 l2.
Proof.
  intros F G. unfold ip_p. rewrite (match_ext l1 l1' l2 l2' (sp_snd _ _ F) (sp_snd _ _ G)).
  destruct (check_match l1 l2) eqn:M; [|reflexivity]. exact (ip_same _ _ _ _ F G M).
Qed.

Lemma sp_clip c g g' pg pg' : SP g g' -> SP pg pg' ->
  res_rel SP (maybe_clip c g pg) (maybe_clip c g' pg').
Proof.
  intros G F. unfold maybe_clip. destruct (c_norm c) as [nc|]; [|exact F].
  unfold clip_updates, update_clip_coeff. rewrite (ip_p_same _ _ _ _ G F).
  destruct (ip_p g pg); cbn [bind res_rel]; [|reflexivity]. apply sp_scale, F.
Qed.

Lemma sp_vel decay coeff l l' vel vel' :
  (forall j, P j (vel j) (vel' j)) -> SP l l' ->
  (forall j, P j (fst (update_velocities vel decay coeff l) j) (fst (update_velocities vel' decay coeff l') j)) /\
  SP (snd (update_velocities vel decay coeff l)) (snd (update_velocities vel' decay coeff l')).
Proof.
  intros V F. revert vel vel' V. induction F as [|[v k] [v' k'] l l' [E H] F IH]; intros vel vel' V.
  - split; [exact V|constructor].
  - cbn [fst snd] in E, H. subst k'. cbn [update_velocities].
    set (nv := vadd (vscale decay (vel k)) (vscale coeff v)).
    set (nv' := vadd (vscale decay (vel' k)) (vscale coeff v')).
    assert (N : P k nv nv') by (apply iso_add; apply iso_scale; [apply V|exact H]).
    specialize (IH (upd vel k nv) (upd vel' k nv')).
    destruct (update_velocities (upd vel k nv) decay coeff l) as [a o],
             (update_velocities (upd vel' k nv') decay coeff l') as [a' o'].
    cbn [fst snd] in *. destruct IH as [IH1 IH2].
    { intros j. unfold upd. destruct (Nat.eqb_spec j k); [subst; exact N|apply V]. }
    split; [exact IH1|]. constructor; [split; [reflexivity|exact N]|exact IH2].
Qed.

Lemma sp_descend lr l l' p p' : (forall j, P j (p j) (p' j)) -> SP l l' ->
  forall j, P j (descend lr p l j) (descend lr p' l' j).
Proof.
  intros V F. revert p p' V. induction F as [|[v k] [v' k'] l l' [E H] F IH]; intros p p' V; [exact V|].
  cbn [fst snd] in E, H. subst k'. cbn [descend]. apply IH.
  intros j. unfold upd. destruct (Nat.eqb_spec j k); [|apply V].
  subst j. apply iso_add; [apply V|apply iso_scale, H].
Qed.

Lemma sp_wd c s s' l l' : SS s s' -> SP l l' -> SP (add_weight_decay c s l) (add_weight_decay c s' l').
Proof.
  intros (V & _) F. induction F as [|[v k] [v' k'] l l' [E H] F IH]; [constructor|].
  cbn [fst snd] in E, H. subst k'. constructor; [|exact IH]. cbn [fst snd].
  split; [reflexivity|]. apply iso_add; [exact H|apply iso_scale, V].
Qed.

Lemma sp_prev s s' vars : SS s s' -> SP (compute_prev_updates s vars) (compute_prev_updates s' vars).
Proof.
  intros (_ & V & _). unfold compute_prev_updates, sprod.
  induction vars as [|k vars IH]; [constructor|]. cbn [map zip]. constructor; [|exact IH].
  cbn [fst snd]. split; [reflexivity|apply iso_scale, V].
Qed.
Lemma prev_vars s vars : map snd (compute_prev_updates s vars) = vars.
Proof.
  unfold compute_prev_updates, sprod. induction vars as [|k vars IH]; [reflexivity|].
  cbn [map zip snd]. rewrite IH. reflexivity.
Qed.

(** States *)
Lemma ss_set_prev_loss s s' l : SS s s' -> SS (set_prev_loss l s) (set_prev_loss l s').
Proof. intros (A & B & C & D & E & F & G & H & I). repeat split; cbn; auto. Qed.
Lemma ss_set_qchange s s' q : SS s s' -> SS (set_qchange q s) (set_qchange q s').
Proof. intros (A & B & C & D & E & F & G & H & I). repeat split; cbn; auto. Qed.
Lemma ss_set_qhyper s s' a b : SS s s' -> SS (set_qhyper a b s) (set_qhyper a b s').
Proof. intros (A & B & C & D & E & F & G & H & I). repeat split; cbn; auto. Qed.
Lemma ss_set_damping s s' a b : SS s s' -> SS (set_damping a b s) (set_damping a b s').
Proof. intros (A & B & C & D & E & F & G & H & I). repeat split; cbn; auto. Qed.
Lemma ss_set_counter s s' n : SS s s' -> SS (set_counter n s) (set_counter n s').
Proof. intros (A & B & C & D & E & F & G & H & I). repeat split; cbn; auto. Qed.
Lemma ss_set_vel s s' v v' : SS s s' -> (forall j, P j (v j) (v' j)) -> SS (set_vel v s) (set_vel v' s').
Proof. intros (A & B & C & D & E & F & G & H & I) V. repeat split; cbn; auto. Qed.
Lemma ss_set_params s s' v v' : SS s s' -> (forall j, P j (v j) (v' j)) -> SS (set_params v s) (set_params v' s').
Proof. intros (A & B & C & D & E & F & G & H & I) V. repeat split; cbn; auto. Qed.

Lemma ss_time c s s' : SS s s' -> is_adaptation_time c s' = is_adaptation_time c s.
Proof. intros (_ & _ & _ & _ & _ & _ & _ & _ & I). unfold is_adaptation_time. rewrite I. reflexivity. Qed.
Lemma ss_after c s s' : SS s s' -> is_just_after_adaptation_time c s' = is_just_after_adaptation_time c s.
Proof. intros (_ & _ & _ & _ & _ & _ & _ & _ & I). unfold is_just_after_adaptation_time. rewrite I. reflexivity. Qed.

Lemma ss_prev_loss c x x' s s' : same_ctx P x x' -> SS s s' ->
  SS (maybe_update_prev_loss c x s) (maybe_update_prev_loss c x' s').
Proof.
  intros (_ & _ & _ & L & LF & _) H. unfold maybe_update_prev_loss.
  destruct (c_adapt c); [|exact H]. rewrite (ss_time c _ _ H).
  destruct (is_adaptation_time c s); [|exact H].
  rewrite L, (LF _ _ (proj1 H)). apply ss_set_prev_loss, H.
Qed.

Definition same_losses (x x' : ctx) : Prop :=
  (forall p p', (forall j, P j (p j) (p' j)) -> x_loss_fn x' p' = x_loss_fn x p) /\
  (forall p p', (forall j, P j (p j) (p' j)) -> x_prev_loss_fn x' p' = x_prev_loss_fn x p).
Lemma ctx_losses x x' : same_ctx P x x' -> same_losses x x'.
Proof. intros (_ & _ & _ & _ & A & B). split; assumption. Qed.

Lemma ss_update_damping c x x' s s' : same_losses x x' -> SS s s' ->
  SS (update_damping c x s) (update_damping c x' s').
Proof.
  intros (LF & PF) H. unfold update_damping.
  assert (C : current_loss c x' s' = current_loss c x s).
  { unfold current_loss. rewrite (LF _ _ (proj1 H)), (PF _ _ (proj1 H)). reflexivity. }
  pose proof H as (_ & _ & D & _ & PL & _ & _ & Q & _).
  rewrite C, PL, Q, D. apply ss_set_damping, H.
Qed.
Lemma ss_pre c x x' s s' : same_losses x x' -> SS s s' ->
  SS (maybe_pre_update_adapt_damping c x s) (maybe_pre_update_adapt_damping c x' s').
Proof.
  intros X H. unfold maybe_pre_update_adapt_damping. rewrite (ss_after c _ _ H).
  destruct (negb (c_adapt c) || negb (c_chief c) || c_immediate c); [exact H|].
  destruct (is_just_after_adaptation_time c s); [|exact H]. exact (ss_update_damping c _ _ _ _ X H).
Qed.
Lemma ss_post c x x' s s' : same_losses x x' -> SS s s' ->
  SS (maybe_post_update_adapt_damping c x s) (maybe_post_update_adapt_damping c x' s').
Proof.
  intros X H. unfold maybe_post_update_adapt_damping. rewrite (ss_time c _ _ H).
  destruct (negb (c_immediate c) || negb (c_adapt c)); [exact H|].
  destruct (is_adaptation_time c s); [|exact H]. exact (ss_update_damping c _ _ _ _ X H).
Qed.

Lemma ss_maybe_qchange c t s s' : SS s s' ->
  res_rel SS (maybe_update_qmodel_change c t s) (maybe_update_qmodel_change c t s').
Proof.
  intros H. unfold maybe_update_qmodel_change. rewrite (ss_time c _ _ H).
  destruct (is_adaptation_time c s); [|exact H]. destruct t as [q|]; [|reflexivity].
  cbn [bind res_rel]. apply ss_set_qchange, H.
Qed.

Lemma same_approx c x x' s s' u u' g g' : same_ctx P x x' -> SS s s' -> SP u u' -> SP g g' ->
  compute_approx_qmodel_change c x' s' u' g' = compute_approx_qmodel_change c x s u g.
Proof.
  intros (_ & M & _) H U G. unfold compute_approx_qmodel_change, sub_damping_coeff.
  pose proof H as (_ & _ & D & _). rewrite D, (ip_p_same _ _ _ _ U (M _ _ U)), (ip_p_same _ _ _ _ U U),
    (ip_p_same _ _ _ _ U G). reflexivity.
Qed.

Lemma sp_unzip l l' : SP l l' -> 
  (exists e, unzip_star l = Raise e /\ unzip_star l' = Raise e) \/
  (unzip_star l = Ok (map fst l, map snd l) /\ unzip_star l' = Ok (map fst l', map snd l')).
Proof. intros F. destruct F; [left; eexists; split; reflexivity|right; split; reflexivity]. Qed.

Lemma same_avm a a' b b' : SP a a' -> SP b b' -> assert_variables_match a' b' = assert_variables_match a b.
Proof.
  intros A B. unfold assert_variables_match.
  destruct (sp_unzip _ _ A) as [(e & -> & ->)|[-> ->]]; [reflexivity|].
  destruct (sp_unzip _ _ B) as [(e & -> & ->)|[-> ->]]; [reflexivity|]. cbn [bind].
  rewrite (match_ext a a' b b' (sp_snd _ _ A) (sp_snd _ _ B)). reflexivity.
Qed.
Lemma avm_match a b u : assert_variables_match a b = Ok u -> check_match a b = true.
Proof.
  unfold assert_variables_match. destruct (unzip_star a); [|discriminate].
  destruct (unzip_star b); [|discriminate]. cbn [bind]. destruct (check_match a b); [reflexivity|discriminate].
Qed.

Lemma same_qmodel c x x' s s' raw raw' prev prev' g g' : same_ctx P x x' -> SS s s' ->
  SP raw raw' -> SP prev prev' -> SP g g' -> map snd prev = map snd g ->
  compute_qmodel c x' s' raw' prev' g' = compute_qmodel c x s raw prev g.
Proof.
  intros (_ & _ & MF & _) H A B G V. unfold compute_qmodel.
  destruct (sp_unzip _ _ A) as [(e & -> & ->)|[-> ->]]; [reflexivity|].
  destruct (sp_unzip _ _ B) as [(e & -> & ->)|[-> ->]]; [reflexivity|].
  destruct (sp_unzip _ _ G) as [(e & -> & ->)|[-> ->]]; [reflexivity|]. cbn [bind fst snd].
  rewrite (same_avm _ _ _ _ A B), (same_avm _ _ _ _ B G).
  destruct (assert_variables_match raw prev) as [u1|] eqn:M1; [|reflexivity].
  destruct (assert_variables_match prev g) as [u2|] eqn:M2; [|reflexivity]. cbn [bind].
  apply avm_match in M1, M2.
  assert (M3 : check_match g raw = true).
  { rewrite match_sym. rewrite <- M1. apply match_ext; [reflexivity|symmetry; exact V]. }
  rewrite (MF _ _ A), (MF _ _ B).
  pose proof H as (_ & _ & D & _). rewrite D.
  rewrite (ip_same _ _ _ _ A A (match_refl _)), (ip_same _ _ _ _ B B (match_refl _)).
  rewrite (ip_same _ _ _ _ B A) by (rewrite match_sym; exact M1).
  rewrite (ip_same _ _ _ _ G A M3), (ip_same _ _ _ _ G B) by (rewrite match_sym; exact M2).
  reflexivity.
Qed.

Lemma same_hyper c s s' m cc b f : SS s s' ->
  compute_qmodel_hyperparams c s' m cc b f = compute_qmodel_hyperparams c s m cc b f.
Proof.
  intros (_ & _ & D & _).
  unfold compute_qmodel_hyperparams, zero_prevupd_case, non_zero_prevupd_case, sub_damping_coeff.
  rewrite D. reflexivity.
Qed.

Definition SRS := fun (a b : pairs * st) => SP (fst a) (fst b) /\ SS (snd a) (snd b).

Lemma same_q_steps c x x' s s' g g' f : same_ctx P x x' -> SS s s' -> SP g g' ->
  res_rel SRS
   (do q <- get_qmodel_quantities c x s g ;
      let '(pg, (m, cc, b)) := q in
      let '(alpha, mu, change) := compute_qmodel_hyperparams c s m cc b f in
      let s1 := set_qhyper (Some (- alpha)) (Some mu) (set_qchange (Some change) s) in
      let (vel, raw) := update_velocities (s_vel s1) mu (- alpha) pg in
      Ok (raw, set_vel vel s1))
   (do q <- get_qmodel_quantities c x' s' g' ;
      let '(pg, (m, cc, b)) := q in
      let '(alpha, mu, change) := compute_qmodel_hyperparams c s' m cc b f in
      let s1 := set_qhyper (Some (- alpha)) (Some mu) (set_qchange (Some change) s') in
      let (vel, raw) := update_velocities (s_vel s1) mu (- alpha) pg in
      Ok (raw, set_vel vel s1)).
Proof.
  intros X H G. pose proof (proj1 X _ _ G) as PG. unfold get_qmodel_quantities.
  rewrite (sp_snd _ _ G).
  rewrite (same_qmodel c x x' s s' _ _ _ _ _ _ X H PG (sp_prev s s' (map snd g) H) G (prev_vars s (map snd g))).
  destruct (compute_qmodel c x s (x_precond x g) _ g) as [[[m cc] b]|]; [|reflexivity].
  cbn [bind]. rewrite (same_hyper c s s' m cc b f H).
  destruct (compute_qmodel_hyperparams c s m cc b f) as [[alpha mu] change].
  pose proof (ss_set_qhyper _ _ (Some (- alpha)) (Some mu) (ss_set_qchange _ _ (Some change) H)) as H1.
  cbv zeta.
  pose proof (sp_vel mu (- alpha) _ _ _ _ (proj1 (proj2 H1)) PG) as W.
  destruct (update_velocities (s_vel (set_qhyper (Some (- alpha)) (Some mu) (set_qchange (Some change) s)))
              mu (- alpha) (x_precond x g)) as [vel raw],
           (update_velocities (s_vel (set_qhyper (Some (- alpha)) (Some mu) (set_qchange (Some change) s')))
              mu (- alpha) (x_precond x' g')) as [vel' raw'].
  cbn [fst snd] in W. cbn [res_rel]. split; cbn [fst snd]; [apply W|]. apply ss_set_vel; [exact H1|apply W].
Qed.

Lemma same_raw c x x' s s' g g' : same_ctx P x x' -> SS s s' -> SP g g' ->
  res_rel SRS (compute_raw_update_steps c x s g) (compute_raw_update_steps c x' s' g').
Proof.
  intros X H G. unfold compute_raw_update_steps.
  destruct (c_mtype c) eqn:T.
  - pose proof (sp_clip c _ _ _ _ G (proj1 X _ _ G)) as C.
    destruct (maybe_clip c g (x_precond x g)) as [pg|], (maybe_clip c g' (x_precond x' g')) as [pg'|];
      cbn [res_rel] in C; try contradiction; [|exact C]. cbn [bind].
    pose proof (sp_vel (c_momentum c) 1 _ _ _ _ (proj1 (proj2 H)) C) as W.
    destruct (update_velocities (s_vel s) (c_momentum c) 1 pg) as [vel raw],
             (update_velocities (s_vel s') (c_momentum c) 1 pg') as [vel' raw']. cbn [fst snd] in W.
    destruct W as [W1 W2]. pose proof (ss_set_vel _ _ _ _ H W1) as H1.
    destruct (c_adapt c && c_chief c); [|cbn [res_rel]; split; assumption].
    rewrite (same_approx c x x' _ _ _ _ _ _ X H1 (sp_scale (-1 * c_lr c) _ _ W2) G).
    pose proof (ss_maybe_qchange c (compute_approx_qmodel_change c x (set_vel vel s)
      (sprod_p (-1 * c_lr c) raw) g) _ _ H1) as Q.
    destruct (maybe_update_qmodel_change c _ (set_vel vel s)) as [s2|],
             (maybe_update_qmodel_change c _ (set_vel vel' s')) as [s2'|];
      cbn [res_rel] in Q; try contradiction; [|exact Q]. cbn [bind res_rel]. split; assumption.
  - pose proof (sp_vel (c_momentum c) 1 _ _ _ _ (proj1 (proj2 H)) G) as W.
    destruct (update_velocities (s_vel s) (c_momentum c) 1 g) as [vel vels],
             (update_velocities (s_vel s') (c_momentum c) 1 g') as [vel' vels']. cbn [fst snd] in W.
    destruct W as [W1 W2]. pose proof (ss_set_vel _ _ _ _ H W1) as H1.
    pose proof (sp_clip c _ _ _ _ W2 (proj1 X _ _ W2)) as C.
    destruct (maybe_clip c vels (x_precond x vels)) as [raw|], (maybe_clip c vels' (x_precond x' vels')) as [raw'|];
      cbn [res_rel] in C; try contradiction; [|exact C]. cbn [bind].
    destruct (c_adapt c && c_chief c); [|cbn [res_rel]; split; assumption].
    rewrite (ip_p_same _ _ _ _ C W2), (ip_p_same _ _ _ _ C G).
    set (t := bind (ip_p raw vels) _).
    pose proof (ss_maybe_qchange c t _ _ H1) as Q.
    destruct (maybe_update_qmodel_change c _ (set_vel vel s)) as [s2|],
             (maybe_update_qmodel_change c _ (set_vel vel' s')) as [s2'|];
      cbn [res_rel] in Q; try contradiction; [|exact Q]. cbn [bind res_rel]. split; assumption.
  - exact (same_q_steps c x x' s s' g g' None X H G).
  - exact (same_q_steps c x x' s s' g g' (Some (c_momentum c)) X H G).
Qed.

Theorem same_step c x x' s s' g g' : same_ctx P x x' -> SS s s' -> SP g g' ->
  res_rel SS (apply_gradients c x s g) (apply_gradients c x' s' g').
Proof.
  intros X H G. unfold apply_gradients.
  pose proof (same_raw c x x' _ _ g g' X (ss_prev_loss c _ _ _ _ X H) G) as W.
  destruct (compute_raw_update_steps c x (maybe_update_prev_loss c x s) g) as [[raw s2]|],
           (compute_raw_update_steps c x' (maybe_update_prev_loss c x' s') g') as [[raw' s2']|];
    cbn [res_rel] in W; try contradiction; [|exact W].
  destruct W as [W1 W2]. cbn [fst snd] in W1, W2. cbn [bind]. cbv zeta. cbn [res_rel].
  assert (R : SP (if c_use_wd c then add_weight_decay c s2 raw else raw)
                 (if c_use_wd c then add_weight_decay c s2' raw' else raw'))
    by (destruct (c_use_wd c); [apply sp_wd; assumption|exact W1]).
  pose proof (ss_set_params _ _ _ _ W2 (sp_descend (c_lr c) _ _ _ _ (proj1 W2) R)) as H3.
  pose proof (ss_post c x x' _ _ (ctx_losses _ _ X) H3) as H4.
  pose proof H4 as (_ & _ & _ & _ & _ & _ & _ & _ & CN). rewrite CN. apply ss_set_counter, H4.
Qed.

Theorem same_steps : forall c l l' s s', SS s s' ->
  Forall2 (fun a b => same_ctx P (fst a) (fst b) /\ SP (snd a) (snd b)) l l' ->
  res_rel SS (run_steps c s l) (run_steps c s' l').
Proof.
  intros c l l' s s' H F. revert s s' H.
  induction F as [|[x g] [x' g'] l l' [X G] F IH]; intros s s' H; [exact H|].
  cbn [fst snd] in *. cbn [run_steps]. pose proof (same_step c x x' s s' g g' X H G) as W.
  destruct (apply_gradients c x s g), (apply_gradients c x' s' g'); cbn [res_rel] in W; try contradiction;
    [|exact W]. cbn [bind]. exact (IH _ _ W).
Qed.
End Step.

(* ------------------------------------------------------------------------ *)
Section Run.
Variables (Batch I Inv : Type) (P : nat -> vec -> vec -> Prop) (Ls : list ((I -> R) -> (I -> R))).
Variables (p : pcfg) (e e' : env Batch I Inv).
Hypothesis ISO : isometric P.
Hypothesis E : same_env P Ls e e'.

Lemma cov_moved decay stats cov : Forall linear_map Ls ->
  cov_update decay (map (fun q => fst q (snd q)) (zip Ls stats)) (moved_cov Ls cov)
  = moved_cov (I := I) Ls (cov_update decay stats cov).
Proof.
  clear E. unfold cov_update, moved_cov. intros F. revert stats cov.
  induction F as [|L l LL F IH]; intros [|f stats] [|m cov]; try reflexivity.
  cbn [zip map fst snd]. rewrite IH. f_equal. cbn [mav_step m_var m_weight m_norm]. f_equal.
  symmetry. apply LL.
Qed.

Record moved (s s' : pst I Inv) : Prop := mkMoved {
  v_st : same_state P (o_st s) (o_st s');
  v_cov : o_cov s' = moved_cov Ls (o_cov s);
  v_inv : s_counter (o_st s) = 0%nat \/ same_inv P Ls e e' (o_inv s) (o_inv s');
  v_burnin : o_burnin s' = o_burnin s }.

Lemma moved_kfac_ops i s s' : moved s s' ->
  let t := kfac_update_ops p e i s in let t' := kfac_update_ops p e' i s' in
  moved t t' /\ same_inv P Ls e e' (o_inv t) (o_inv t').
Proof.
  intros R. destruct E as (LIN & _ & L & ST & _ & INV). cbv zeta.
  rewrite !ops_form. destruct s as [a cov inv bn], s' as [a' cov' inv' bn'].
  destruct R as [R1 R2 R3 R4]. cbn [o_st o_cov o_inv o_burnin] in *. subst cov' bn'.
  pose proof R1 as (PA & _ & _ & _ & _ & _ & _ & _ & CN). rewrite CN.
  rewrite (ST _ _ _ PA), (cov_moved _ _ _ LIN).
  set (b := maybe_pre_update_adapt_damping (p_cfg p) _ a).
  set (b' := maybe_pre_update_adapt_damping (p_cfg p) _ a').
  assert (B : same_state P b b').
  { apply (ss_pre P); [|exact R1]. split; cbn; intros q q' Q; apply L, Q. }
  set (cc := if Nat.eqb (Nat.modulo (s_counter a) (p_cov_every p)) 0
             then cov_update (p_ema p) (e_stats e (s_params a) (i_batch i)) cov else cov).
  assert (CC : (if Nat.eqb (Nat.modulo (s_counter a) (p_cov_every p)) 0
      then moved_cov Ls (cov_update (p_ema p) (e_stats e (s_params a) (i_batch i)) cov)
      else moved_cov Ls cov) = moved_cov Ls cc)
    by (unfold cc; destruct (Nat.eqb (Nat.modulo (s_counter a) (p_cov_every p)) 0); reflexivity).
  rewrite CC. clear CC.
  set (iv := if Nat.eqb _ 0 then e_invert e cc (s_damping b) else inv).
  set (iv' := if Nat.eqb _ 0 then e_invert e' _ _ else inv').
  assert (IV : same_inv P Ls e e' iv iv').
  { unfold iv, iv'. destruct (Nat.eqb (Nat.modulo (s_counter a) (p_invert_every p)) 0) eqn:Q.
    - pose proof B as (_ & _ & D & _). rewrite D. apply INV.
    - destruct R3 as [Z|R3]; [|exact R3]. exfalso. rewrite Z in Q.
      destruct (p_invert_every p) as [|m]; [discriminate Q|].
      rewrite Nat.mod_0_l in Q by discriminate. discriminate Q. }
  cbn [o_st o_cov o_inv o_burnin]. split; [|exact IV].
  split; cbn [o_st o_cov o_inv o_burnin]; try reflexivity; [exact B|right; exact IV].
Qed.

Lemma moved_full i s s' : moved s s' -> res_rel moved (full_step p e i s) (full_step p e' i s').
Proof.
  intros R. pose proof (moved_kfac_ops i s s' R) as W. cbv zeta in W.
  destruct E as (_ & G & L & _ & MF & _). unfold full_step.
  set (t := kfac_update_ops p e i s) in *. set (t' := kfac_update_ops p e' i s') in *.
  destruct W as ([T1 T2 _ T4] & IV). destruct R as [R1 _ _ _]. pose proof (proj1 R1) as PA.
  cbv zeta.
  pose proof T1 as (_ & _ & D & _).
  assert (X : same_ctx P (loss_ctx e i (e_loss e (i_batch i) (s_params (o_st s))) (o_cov t) (o_inv t)
                            (s_damping (o_st t)) (s_params (o_st s)))
                         (loss_ctx e' i (e_loss e' (i_batch i) (s_params (o_st s'))) (o_cov t') (o_inv t')
                            (s_damping (o_st t')) (s_params (o_st s')))).
  { destruct IV as [I1 I2]. rewrite T2, D.
    split; [exact I1|]. split; [exact (I2 (o_cov t) (s_damping (o_st t)))|].
    split; [intros u u' U; exact (MF _ _ _ _ _ PA U)|]. cbn.
    split; [exact (L _ _ _ PA)|]. split; intros q q' Q; apply L, Q. }
  pose proof (same_step P ISO (p_cfg p) _ _ _ _ _ _ X T1 (G _ _ (i_batch i) PA)) as STEP.
  destruct (apply_gradients (p_cfg p) _ (o_st t) _) as [o|x],
           (apply_gradients (p_cfg p) _ (o_st t') _) as [o'|x']; cbn [res_rel] in STEP; try contradiction;
    [|exact STEP].
  cbn [bind res_rel]. split; cbn; auto.
Qed.

Theorem moved_minimize i s s' : moved s s' -> res_rel moved (minimize p e s i) (minimize p e' s' i).
Proof.
  intros R. unfold minimize.
  destruct (Nat.eqb (p_burnin p) 0); [exact (moved_full i s s' R)|].
  rewrite (v_burnin _ _ R).
  destruct (Nat.ltb (o_burnin s) (p_burnin p)); [|exact (moved_full i s s' R)].
  cbn [res_rel]. destruct E as (LIN & _ & _ & ST & _). destruct R as [R1 R2 R3 R4]. unfold burnin_step.
  split; cbn [o_st o_cov o_inv o_burnin].
  - exact R1.
  - rewrite R2, (ST _ _ _ (proj1 R1)). apply cov_moved, LIN.
  - exact R3.
  - rewrite R4. reflexivity.
Qed.

Lemma zeros_scale (v : vec) : map (fun _ => 0) v = vscale 0 v.
Proof. unfold vscale. apply map_ext. intros. ring. Qed.

Lemma moved_initial params0 params0' d0 factors inv0 inv0' : length Ls = factors ->
  (forall j, P j (params0 j) (params0' j)) ->
  moved (initial params0 d0 factors inv0) (initial params0' d0 factors inv0').
Proof.
  intros L V. unfold initial. split; cbn [o_st o_cov o_inv o_burnin s_counter].
  - split; [exact V|]. split; [|repeat split; reflexivity]. cbn. intros j. rewrite !zeros_scale.
    apply ISO, V.
  - subst factors. destruct E as (LIN & _). clear E.
    induction LIN as [|l ls HL LIN IH]; [reflexivity|]. cbn. unfold moved_cov in IH.
    rewrite <- IH. f_equal. unfold mav_init. cbn. f_equal.
    pose proof (HL 0 0 (fun _ => 0) (fun _ => 0)) as Z. cbn beta in Z.
    replace (fun i : I => 0 * 0 + 0 * 0) with (fun _ : I => 0) in Z
      by (apply functional_extensionality; intros; ring).
    rewrite Z. apply functional_extensionality. intros. ring.
  - left. reflexivity.
  - reflexivity.
Qed.

Theorem moved_run params0 params0' d0 factors inv0 inv0' inputs states :
  length Ls = factors -> (forall j, P j (params0 j) (params0' j)) ->
  is_run p e (initial params0 d0 factors inv0) inputs states ->
  exists states', is_run p e' (initial params0' d0 factors inv0') inputs states' /\
    forall t, moved (states t) (states' t).
Proof.
  intros LW V [S0 RUN].
  set (start := initial params0' d0 factors inv0').
  set (states' := fix go (t : nat) : pst I Inv :=
      match t with
      | O => start
      | S t0 => match minimize p e' (go t0) (inputs t0) with Ok s => s | Raise _ => go t0 end
      end).
  assert (ALL : forall t, moved (states t) (states' t) /\
     minimize p e' (states' t) (inputs t) = Ok (states' (S t))).
  { assert (STEP : forall t, moved (states t) (states' t) ->
        minimize p e' (states' t) (inputs t) = Ok (states' (S t)) /\ moved (states (S t)) (states' (S t))).
    { intros t R. pose proof (moved_minimize (inputs t) _ _ R) as M. rewrite RUN in M.
      change (states' (S t)) with
        (match minimize p e' (states' t) (inputs t) with Ok s => s | Raise _ => states' t end).
      destruct (minimize p e' (states' t) (inputs t)) as [s|]; [|destruct M]. split; [reflexivity|exact M]. }
    intros t. induction t as [|t [R _]].
    - assert (R : moved (states 0%nat) (states' 0%nat)) by (rewrite S0; apply moved_initial; assumption).
      split; [exact R|exact (proj1 (STEP 0%nat R))].
    - destruct (STEP t R) as [_ R']. split; [exact R'|exact (proj1 (STEP (S t) R'))]. }
  exists states'. split; [split; [reflexivity|intros t; apply ALL]|intros t; apply ALL].
Qed.
End Run.

(* ------------------------------------------------------------------------ *)
(** Matrices give isometric coordinates. *)
Lemma dot_nil_r (r : vec) : dot r [] = 0.
Proof. destruct r; reflexivity. Qed.
Lemma dot_scale_right a (r v : vec) : dot r (vscale a v) = a * dot r v.
Proof.
  revert v. induction r as [|x r IH]; intros [|y v]; try (rewrite ?dot_nil_r; cbn; ring).
  unfold dot in *. cbn [vscale map zip rsum fold_right fst snd] in *. fold (vscale a v) in *.
  specialize (IH v). unfold rsum in IH. rewrite IH. ring.
Qed.
Lemma dot_add_right (r v w : vec) : length v = length w -> dot r (vadd v w) = dot r v + dot r w.
Proof.
  revert v w. induction r as [|x r IH]; intros [|y v] [|z w] L; try discriminate L;
    try (cbn; ring).
  unfold dot, vadd in *. cbn [map zip rsum fold_right fst snd] in *.
  injection L as L. specialize (IH v w L). unfold rsum in IH. rewrite IH. ring.
Qed.
Lemma vadd_len (v w : vec) : length v = length w -> length (vadd v w) = length v.
Proof.
  revert w. unfold vadd. induction v as [|x v IH]; intros [|y w] L; try discriminate L; [reflexivity|].
  cbn [zip map length] in *. injection L as L. rewrite (IH _ L). reflexivity.
Qed.
Lemma matvec_add rows v w : length v = length w -> matvec rows (vadd v w) = vadd (matvec rows v) (matvec rows w).
Proof.
  intros L. unfold matvec. induction rows as [|r rows IH]; [reflexivity|]. cbn [map].
  rewrite IH, (dot_add_right _ _ _ L). reflexivity.
Qed.
Lemma matvec_scale rows a v : matvec rows (vscale a v) = vscale a (matvec rows v).
Proof.
  unfold matvec. induction rows as [|r rows IH]; [reflexivity|]. cbn [map vscale].
  rewrite IH, dot_scale_right. reflexivity.
Qed.
Lemma coordinates_isometric n Q : (forall j, preserves_products (n j) (Q j)) -> isometric (in_coordinates n Q).
Proof.
  intros H. split; [|split].
  - intros j a v v' [L ->]. split; [unfold vscale; rewrite map_length; exact L|].
    symmetry. apply matvec_scale.
  - intros j v v' w w' [L ->] [L' ->]. split; [rewrite vadd_len; congruence|].
    symmetry. apply matvec_add. congruence.
  - intros j v v' w w' [L ->] [L' ->]. apply H; assumption.
Qed.
