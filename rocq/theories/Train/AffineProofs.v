(** Training in other coordinates, without damping: proofs for C123. *)
From Coq Require Import List Arith Bool Reals Lra Lia FunctionalExtensionality.
From Verif.Base Require Import Py.
From Verif.Tensors Require Import Model.
From Verif.Train Require Import Model Spec VecProofs UnitsProofs MomentumProofs RotateSpec RotateProofs AffineSpec.
Import ListNotations.
Open Scope list_scope.
Open Scope R_scope.

(* ------------------------------------------------------------------------ *)
(** One kind of vectors. *)
Section Kind.
Variable P : nat -> vec -> vec -> Prop.
Hypothesis SC : forall j a v v', P j v v' -> P j (vscale a v) (vscale a v').
Hypothesis AD : forall j v v' w w', P j v v' -> P j w w' -> P j (vadd v w) (vadd v' w').
Notation SP := (same_pairs P).

Lemma k_scale a l l' : SP l l' -> SP (sprod_p a l) (sprod_p a l').
Proof.
  intros F. induction F as [|p q l l' [E H] F IH]; [constructor|].
  constructor; [|exact IH]. cbn [fst snd]. split; [exact E|apply SC, H].
Qed.
Lemma k_vel decay coeff l l' vel vel' :
  (forall j, P j (vel j) (vel' j)) -> SP l l' ->
  (forall j, P j (fst (update_velocities vel decay coeff l) j) (fst (update_velocities vel' decay coeff l') j)) /\
  SP (snd (update_velocities vel decay coeff l)) (snd (update_velocities vel' decay coeff l')).
Proof.
  intros V F. revert vel vel' V. induction F as [|[v k] [v' k'] l l' [E H] F IH]; intros vel vel' V.
  - split; [exact V|constructor].
  - cbn [fst snd] in E, H. subst k'. cbn [update_velocities].
    set (nv := vadd (vscale decay (vel k)) (vscale coeff v)).
    set (nv' := vadd (vscale decay (vel' k)) (vscale coeff v')).
    assert (N : P k nv nv') by (apply AD; apply SC; [apply V|exact H]).
    specialize (IH (upd vel k nv) (upd vel' k nv')).
    destruct (update_velocities (upd vel k nv) decay coeff l) as [a o],
             (update_velocities (upd vel' k nv') decay coeff l') as [a' o'].
    cbn [fst snd] in *. destruct IH as [IH1 IH2].
    { intros j. unfold upd. destruct (Nat.eqb_spec j k); [subst; exact N|apply V]. }
    split; [exact IH1|]. constructor; [split; [reflexivity|exact N]|exact IH2].
Qed.
Lemma k_descend lr l l' p p' : (forall j, P j (p j) (p' j)) -> SP l l' ->
  forall j, P j (descend lr p l j) (descend lr p' l' j).
Proof.
  intros V F. revert p p' V. induction F as [|[v k] [v' k'] l l' [E H] F IH]; intros p p' V; [exact V|].
  cbn [fst snd] in E, H. subst k'. cbn [descend]. apply IH.
  intros j. unfold upd. destruct (Nat.eqb_spec j k); [|apply V].
  subst j. apply AD; [apply V|apply SC, H].
Qed.
Lemma k_wd c s s' l l' : (forall j, P j (s_params s j) (s_params s' j)) -> SP l l' ->
  SP (add_weight_decay c s l) (add_weight_decay c s' l').
Proof.
  intros V F. induction F as [|[v k] [v' k'] l l' [E H] F IH]; [constructor|].
  cbn [fst snd] in E, H. subst k'. constructor; [|exact IH]. cbn [fst snd].
  split; [reflexivity|]. apply AD; [exact H|apply SC, V].
Qed.
Lemma k_prev s s' vars : (forall j, P j (s_vel s j) (s_vel s' j)) ->
  SP (compute_prev_updates s vars) (compute_prev_updates s' vars).
Proof.
  intros V. unfold compute_prev_updates, sprod.
  induction vars as [|k vars IH]; [constructor|]. cbn [map zip]. constructor; [|exact IH].
  cbn [fst snd]. split; [reflexivity|apply SC, V].
Qed.
End Kind.

(** Products of one kind with another. *)
Lemma ip2 (A B : nat -> vec -> vec -> Prop) l1 l1' l2 l2' :
  (forall j v v' w w', A j v v' -> B j w w' -> dot v' w' = dot v w) ->
  same_pairs A l1 l1' -> same_pairs B l2 l2' -> check_match l1 l2 = true ->
  ip (map fst l1') (map fst l2') = ip (map fst l1) (map fst l2).
Proof.
  intros DOT F G M. unfold ip.
  assert (Q : map (fun p => dot (fst p) (snd p)) (zip (map fst l1') (map fst l2'))
            = map (fun p => dot (fst p) (snd p)) (zip (map fst l1) (map fst l2))).
  { revert l2 l2' G M. induction F as [|p q l1 l1' [E H] F IH]; intros l2 l2' G M; [reflexivity|].
    destruct G as [|p2 q2 l2 l2' [E2 H2] G]; [reflexivity|].
    unfold check_match in M. cbn [zip forallb fst snd] in M.
    apply andb_true_iff in M. destruct M as [M1 M2]. apply Nat.eqb_eq in M1.
    cbn [zip map fst snd]. rewrite (IH _ _ G M2). f_equal. rewrite <- M1 in H2.
    exact (DOT _ _ _ _ _ H H2). }
  destruct (zip (map fst l1') (map fst l2')) as [|x' z'] eqn:Z', (zip (map fst l1) (map fst l2)) as [|x z] eqn:Z;
    try discriminate Q; [reflexivity|]. rewrite Q. reflexivity.
Qed.
Lemma ip_p2 (A B : nat -> vec -> vec -> Prop) l1 l1' l2 l2' :
  (forall j v v' w w', A j v v' -> B j w w' -> dot v' w' = dot v w) ->
  same_pairs A l1 l1' -> same_pairs B l2 l2' -> ip_p l1' l2' = ip_p l1 l2.
Proof.
  intros DOT F G. unfold ip_p. rewrite (match_ext l1 l1' l2 l2' (sp_snd A _ _ F) (sp_snd B _ _ G)).
  destruct (check_match l1 l2) eqn:M; [|reflexivity]. exact (ip2 A B _ _ _ _ DOT F G M).
Qed.
(** Whether a product of lists is defined depends on their lengths only. *)
Lemma ip_defined (A B : nat -> vec -> vec -> Prop) l1 l1' l2 l2' :
  same_pairs A l1 l1' -> same_pairs B l2 l2' ->
  match ip (map fst l1) (map fst l2), ip (map fst l1') (map fst l2') with
  | Ok _, Ok _ => True
  | Raise e, Raise e' => e = e'
  | _, _ => False
  end.
Proof. intros F G. unfold ip. destruct F; [reflexivity|]. destruct G; [reflexivity|]. exact I. Qed.
Lemma avm2 (A B : nat -> vec -> vec -> Prop) a a' b b' :
  same_pairs A a a' -> same_pairs B b b' -> assert_variables_match a' b' = assert_variables_match a b.
Proof.
  intros FA FB. unfold assert_variables_match.
  destruct (sp_unzip A _ _ FA) as [(e & -> & ->)|[-> ->]]; [reflexivity|].
  destruct (sp_unzip B _ _ FB) as [(e & -> & ->)|[-> ->]]; [reflexivity|]. cbn [bind].
  rewrite (match_ext a a' b b' (sp_snd A _ _ FA) (sp_snd B _ _ FB)). reflexivity.
Qed.

(* ------------------------------------------------------------------------ *)
Lemma keeps_damping c x s g s' : c_adapt c = false -> apply_gradients c x s g = Ok s' -> s_damping s' = s_damping s.
Proof.
  intros A H. destruct (apply_damping c x s g s' H) as (_ & _ & K).
  rewrite A, andb_false_r in K. apply K.
Qed.

Section Step.
Variables (P D : nat -> vec -> vec -> Prop) (c : cfg).
Hypothesis DU : dual P D.
Notation SP := (same_pairs P).
Notation SD := (same_pairs D).
Notation SS := (affine_state c P D).

Let Psc : forall j a v v', P j v v' -> P j (vscale a v) (vscale a v') := proj1 DU.
Let Pad : forall j v v' w w', P j v v' -> P j w w' -> P j (vadd v w) (vadd v' w') := proj1 (proj2 DU).
Let Dsc : forall j a v v', D j v v' -> D j (vscale a v) (vscale a v') := proj1 (proj2 (proj2 DU)).
Let Dad : forall j v v' w w', D j v v' -> D j w w' -> D j (vadd v w) (vadd v' w') :=
  proj1 (proj2 (proj2 (proj2 DU))).
Lemma dot_DP j v v' w w' : D j v v' -> P j w w' -> dot v' w' = dot v w.
Proof. intros A B. exact (proj2 (proj2 (proj2 (proj2 DU))) j w w' v v' B A). Qed.

Lemma a_clip g g' pg pg' : SD g g' -> SP pg pg' ->
  res_rel SP (maybe_clip c g pg) (maybe_clip c g' pg').
Proof.
  intros G F. unfold maybe_clip. destruct (c_norm c) as [nc|]; [|exact F].
  unfold clip_updates, update_clip_coeff. rewrite (ip_p2 D P _ _ _ _ dot_DP G F).
  destruct (ip_p g pg); cbn [bind res_rel]; [|reflexivity]. apply (k_scale P Psc), F.
Qed.

Lemma a_set_vel s s' v v' : SS s s' -> (forall j, vel_kind (c_mtype c) P D j (v j) (v' j)) -> SS (set_vel v s) (set_vel v' s').
Proof. intros (A & B & C & E & F & G & H & I & J) V. repeat split; cbn; auto. Qed.
Lemma a_set_params s s' v v' : SS s s' -> (forall j, P j (v j) (v' j)) -> SS (set_params v s) (set_params v' s').
Proof. intros (A & B & C & E & F & G & H & I & J) V. repeat split; cbn; auto. Qed.
Lemma a_set_counter s s' n : SS s s' -> SS (set_counter n s) (set_counter n s').
Proof. intros (A & B & C & E & F & G & H & I & J). repeat split; cbn; auto. Qed.
Lemma a_set_qchange s s' q : SS s s' -> SS (set_qchange q s) (set_qchange q s').
Proof. intros (A & B & C & E & F & G & H & I & J). repeat split; cbn; auto. Qed.
Lemma a_set_qhyper s s' a b : SS s s' -> SS (set_qhyper a b s) (set_qhyper a b s').
Proof. intros (A & B & C & E & F & G & H & I & J). repeat split; cbn; auto. Qed.

Lemma a_qmodel x x' s s' raw raw' prev prev' g g' : affine_ctx P D x x' ->
  s_damping s = 0 -> s_damping s' = 0 ->
  SP raw raw' -> SP prev prev' -> SD g g' -> map snd prev = map snd g ->
  compute_qmodel c x' s' raw' prev' g' = compute_qmodel c x s raw prev g.
Proof.
  intros (_ & MF) Z Z' A B G V. unfold compute_qmodel.
  destruct (sp_unzip P _ _ A) as [(e & -> & ->)|[-> ->]]; [reflexivity|].
  destruct (sp_unzip P _ _ B) as [(e & -> & ->)|[-> ->]]; [reflexivity|].
  destruct (sp_unzip D _ _ G) as [(e & -> & ->)|[-> ->]]; [reflexivity|]. cbn [bind fst snd].
  rewrite (avm2 P P _ _ _ _ A B), (avm2 P D _ _ _ _ B G).
  destruct (assert_variables_match raw prev) as [u1|] eqn:M1; [|reflexivity].
  destruct (assert_variables_match prev g) as [u2|] eqn:M2; [|reflexivity]. cbn [bind].
  apply avm_match in M1, M2.
  assert (M3 : check_match g raw = true).
  { rewrite match_sym. rewrite <- M1. apply match_ext; [reflexivity|symmetry; exact V]. }
  rewrite (MF _ _ A), (MF _ _ B), Z, Z'.
  rewrite (ip2 D P _ _ _ _ dot_DP G A M3), (ip2 D P _ _ _ _ dot_DP G B) by (rewrite match_sym; exact M2).
  pose proof (ip_defined P P _ _ _ _ A A) as E1. pose proof (ip_defined P P _ _ _ _ B A) as E2.
  pose proof (ip_defined P P _ _ _ _ B B) as E3.
  destruct (ip (map fst raw) (map fst raw)), (ip (map fst raw') (map fst raw'));
    try contradiction; [|subst; reflexivity]. cbn [bind].
  destruct (ip (map fst prev) (map fst raw)), (ip (map fst prev') (map fst raw'));
    try contradiction; [|subst; reflexivity]. cbn [bind].
  destruct (ip (map fst prev) (map fst prev)), (ip (map fst prev') (map fst prev'));
    try contradiction; [|subst; reflexivity]. cbn [bind].
  rewrite !Rmult_0_l. reflexivity.
Qed.

Lemma a_hyper s s' m cc b f : s_damping s' = s_damping s ->
  compute_qmodel_hyperparams c s' m cc b f = compute_qmodel_hyperparams c s m cc b f.
Proof.
  intros E.
  unfold compute_qmodel_hyperparams, zero_prevupd_case, non_zero_prevupd_case, sub_damping_coeff.
  rewrite E. reflexivity.
Qed.

Definition SRS := fun (a b : pairs * st) => SP (fst a) (fst b) /\ SS (snd a) (snd b).

Lemma a_q_steps x x' s s' g g' f : affine_ctx P D x x' -> SS s s' -> SD g g' ->
  s_damping s = 0 -> vel_kind (c_mtype c) P D = P ->
  res_rel SRS
   (do q <- get_qmodel_quantities c x s g ;
      let '(pg, (m, cc, b)) := q in
      let '(alpha, mu, change) := compute_qmodel_hyperparams c s m cc b f in
      let s1 := set_qhyper (Some (- alpha)) (Some mu) (set_qchange (Some change) s) in
      let (vel, raw) := update_velocities (s_vel s1) mu (- alpha) pg in
      Ok (raw, set_vel vel s1))
   (do q <- get_qmodel_quantities c x' s' g' ;
      let '(pg, (m, cc, b)) := q in
      let '(alpha, mu, change) := compute_qmodel_hyperparams c s' m cc b f in
      let s1 := set_qhyper (Some (- alpha)) (Some mu) (set_qchange (Some change) s') in
      let (vel, raw) := update_velocities (s_vel s1) mu (- alpha) pg in
      Ok (raw, set_vel vel s1)).
Proof.
  intros X H G Z K. pose proof (proj1 X _ _ G) as PG. unfold get_qmodel_quantities.
  pose proof H as (_ & VV & DD & _). rewrite K in VV.
  rewrite (sp_snd D _ _ G).
  rewrite (a_qmodel x x' s s' _ _ _ _ _ _ X Z (eq_trans DD Z) PG (k_prev P Psc s s' (map snd g) VV) G (prev_vars s (map snd g))).
  destruct (compute_qmodel c x s (x_precond x g) _ g) as [[[m cc] b]|]; [|reflexivity].
  cbn [bind]. rewrite (a_hyper s s' m cc b f DD).
  destruct (compute_qmodel_hyperparams c s m cc b f) as [[alpha mu] change].
  pose proof (a_set_qhyper _ _ (Some (- alpha)) (Some mu) (a_set_qchange _ _ (Some change) H)) as H1.
  cbv zeta.
  pose proof (k_vel P Psc Pad mu (- alpha) _ _ _ _ VV PG) as W.
  change (s_vel (set_qhyper (Some (- alpha)) (Some mu) (set_qchange (Some change) s))) with (s_vel s).
  change (s_vel (set_qhyper (Some (- alpha)) (Some mu) (set_qchange (Some change) s'))) with (s_vel s').
  destruct (update_velocities (s_vel s) mu (- alpha) (x_precond x g)) as [vel raw],
           (update_velocities (s_vel s') mu (- alpha) (x_precond x' g')) as [vel' raw'].
  cbn [fst snd] in W. cbn [res_rel]. split; cbn [fst snd]; [apply W|]. apply a_set_vel; [exact H1|].
  rewrite K. apply W.
Qed.

Lemma a_raw x x' s s' g g' : affine_ctx P D x x' -> SS s s' -> SD g g' -> undamped c (s_damping s) ->
  res_rel SRS (compute_raw_update_steps c x s g) (compute_raw_update_steps c x' s' g').
Proof.
  intros X H G [U Z]. unfold compute_raw_update_steps. rewrite U. cbn [andb].
  pose proof (proj1 (proj2 H)) as VV.
  destruct (c_mtype c) eqn:T; cbn [vel_kind] in VV.
  - pose proof (a_clip _ _ _ _ G (proj1 X _ _ G)) as C.
    destruct (maybe_clip c g (x_precond x g)) as [pg|], (maybe_clip c g' (x_precond x' g')) as [pg'|];
      cbn [res_rel] in C; try contradiction; [|exact C]. cbn [bind].
    pose proof (k_vel P Psc Pad (c_momentum c) 1 _ _ _ _ VV C) as W.
    destruct (update_velocities (s_vel s) (c_momentum c) 1 pg) as [vel raw],
             (update_velocities (s_vel s') (c_momentum c) 1 pg') as [vel' raw']. cbn [fst snd] in W.
    destruct W as [W1 W2]. cbn [res_rel]. split; [exact W2|].
    apply a_set_vel; [exact H|]. rewrite T. exact W1.
  - pose proof (k_vel D Dsc Dad (c_momentum c) 1 _ _ _ _ VV G) as W.
    destruct (update_velocities (s_vel s) (c_momentum c) 1 g) as [vel vels],
             (update_velocities (s_vel s') (c_momentum c) 1 g') as [vel' vels']. cbn [fst snd] in W.
    destruct W as [W1 W2].
    pose proof (a_clip _ _ _ _ W2 (proj1 X _ _ W2)) as C.
    destruct (maybe_clip c vels (x_precond x vels)) as [raw|], (maybe_clip c vels' (x_precond x' vels')) as [raw'|];
      cbn [res_rel] in C; try contradiction; [|exact C]. cbn [bind res_rel]. split; [exact C|].
    apply a_set_vel; [exact H|]. rewrite T. exact W1.
  - apply (a_q_steps x x' s s' g g' None X H G Z). rewrite T. reflexivity.
  - apply (a_q_steps x x' s s' g g' (Some (c_momentum c)) X H G Z). rewrite T. reflexivity.
Qed.

Theorem a_step x x' s s' g g' : affine_ctx P D x x' -> SS s s' -> SD g g' -> undamped c (s_damping s) ->
  res_rel SS (apply_gradients c x s g) (apply_gradients c x' s' g').
Proof.
  intros X H G U. unfold apply_gradients.
  assert (N : forall x s, maybe_update_prev_loss c x s = s)
    by (intros; unfold maybe_update_prev_loss; rewrite (proj1 U); reflexivity).
  rewrite !N. pose proof (a_raw x x' _ _ g g' X H G U) as W.
  destruct (compute_raw_update_steps c x s g) as [[raw s2]|],
           (compute_raw_update_steps c x' s' g') as [[raw' s2']|];
    cbn [res_rel] in W; try contradiction; [|exact W].
  destruct W as [W1 W2]. cbn [fst snd] in W1, W2. cbn [bind]. cbv zeta. cbn [res_rel].
  assert (Q : SP (if c_use_wd c then add_weight_decay c s2 raw else raw)
                 (if c_use_wd c then add_weight_decay c s2' raw' else raw'))
    by (destruct (c_use_wd c); [apply (k_wd P Psc Pad); [apply W2|assumption]|exact W1]).
  pose proof (a_set_params _ _ _ _ W2 (k_descend P Psc Pad (c_lr c) _ _ _ _ (proj1 W2) Q)) as H3.
  assert (M : forall x s, maybe_post_update_adapt_damping c x s = s).
  { intros. unfold maybe_post_update_adapt_damping. rewrite (proj1 U), orb_true_r. reflexivity. }
  rewrite !M. pose proof H3 as (_ & _ & _ & _ & _ & _ & _ & _ & CN). rewrite CN. apply a_set_counter, H3.
Qed.

Theorem a_steps l l' s s' : SS s s' -> undamped c (s_damping s) ->
  Forall2 (fun a b => affine_ctx P D (fst a) (fst b) /\ SD (snd a) (snd b)) l l' ->
  res_rel SS (run_steps c s l) (run_steps c s' l').
Proof.
  intros H U F. revert s s' H U.
  induction F as [|[x g] [x' g'] l l' [X G] F IH]; intros s s' H U; [exact H|].
  cbn [fst snd] in *. cbn [run_steps]. pose proof (a_step x x' s s' g g' X H G U) as W.
  destruct (apply_gradients c x s g) as [s1|] eqn:A, (apply_gradients c x' s' g'); cbn [res_rel] in W; try contradiction;
    [|exact W]. cbn [bind]. apply (IH _ _ W). rewrite (keeps_damping c x s g s1 (proj1 U) A). exact U.
Qed.
End Step.

(* ------------------------------------------------------------------------ *)
Section Run.
Variables (Batch I Inv : Type) (P D : nat -> vec -> vec -> Prop) (Ls : list ((I -> R) -> (I -> R))).
Variables (good : list (mav I) -> Prop) (d0 : R).
Variables (p : pcfg) (e e' : env Batch I Inv).
Hypothesis DU : dual P D.
Hypothesis E : affine_env P D Ls good d0 e e'.
Hypothesis U : undamped (p_cfg p) d0.

Definition inv_related (inv inv' : Inv) : Prop :=
  forall g g', same_pairs D g g' -> same_pairs P (e_precond e inv g) (e_precond e' inv' g').
Record affine (s s' : pst I Inv) : Prop := mkAffine {
  f_st : affine_state (p_cfg p) P D (o_st s) (o_st s');
  f_damping : s_damping (o_st s) = d0;
  f_cov : o_cov s' = moved_cov Ls (o_cov s);
  f_inv : s_counter (o_st s) = 0%nat \/ inv_related (o_inv s) (o_inv s');
  f_burnin : o_burnin s' = o_burnin s }.

Lemma no_pre x s : maybe_pre_update_adapt_damping (p_cfg p) x s = s.
Proof. unfold maybe_pre_update_adapt_damping. rewrite (proj1 U). reflexivity. Qed.

Lemma affine_ops i s s' : affine s s' -> good (o_cov (kfac_update_ops p e i s)) ->
  let t := kfac_update_ops p e i s in let t' := kfac_update_ops p e' i s' in
  affine t t' /\ inv_related (o_inv t) (o_inv t').
Proof.
  intros Q. destruct E as (LIN & _ & ST & _ & INV). cbv zeta.
  rewrite !ops_form, !no_pre. destruct s as [a cov inv bn], s' as [a' cov' inv' bn'].
  destruct Q as [Q1 QD Q2 Q3 Q4]. cbn [o_st o_cov o_inv o_burnin] in *. subst cov' bn'.
  pose proof Q1 as (PA & _ & DD & _ & _ & _ & _ & _ & CN). rewrite CN.
  rewrite (ST _ _ _ PA), (cov_moved I Ls _ _ _ LIN), DD, QD.
  set (cc := if Nat.eqb (Nat.modulo (s_counter a) (p_cov_every p)) 0
             then cov_update (p_ema p) (e_stats e (s_params a) (i_batch i)) cov else cov).
  assert (CC : (if Nat.eqb (Nat.modulo (s_counter a) (p_cov_every p)) 0
      then moved_cov Ls (cov_update (p_ema p) (e_stats e (s_params a) (i_batch i)) cov)
      else moved_cov Ls cov) = moved_cov Ls cc)
    by (unfold cc; destruct (Nat.eqb (Nat.modulo (s_counter a) (p_cov_every p)) 0); reflexivity).
  rewrite CC. clear CC. intros GOOD.
  set (iv := if Nat.eqb _ 0 then e_invert e cc d0 else inv).
  set (iv' := if Nat.eqb _ 0 then e_invert e' _ _ else inv').
  assert (IV : inv_related iv iv').
  { unfold iv, iv'. destruct (Nat.eqb (Nat.modulo (s_counter a) (p_invert_every p)) 0) eqn:Q.
    - exact (INV _ GOOD).
    - destruct Q3 as [Z|Q3]; [|exact Q3]. exfalso. rewrite Z in Q.
      destruct (p_invert_every p) as [|m]; [discriminate Q|].
      rewrite Nat.mod_0_l in Q by discriminate. discriminate Q. }
  cbn [o_st o_cov o_inv o_burnin]. split; [|exact IV].
  split; cbn [o_st o_cov o_inv o_burnin]; try reflexivity; [exact Q1|exact QD|right; exact IV].
Qed.

Lemma affine_full i s s' s1 : affine s s' -> full_step p e i s = Ok s1 -> good (o_cov s1) ->
  exists s1', full_step p e' i s' = Ok s1' /\ affine s1 s1'.
Proof.
  intros Q. pose proof (affine_ops i s s' Q) as W. cbv zeta in W.
  destruct E as (_ & G & _ & MF & _). unfold full_step.
  set (t := kfac_update_ops p e i s) in *. set (t' := kfac_update_ops p e' i s') in *.
  cbv zeta. intros OK GOOD.
  assert (GT : good (o_cov t)).
  { destruct (apply_gradients (p_cfg p) _ (o_st t) _) as [o|]; [|discriminate OK].
    injection OK as <-. exact GOOD. }
  destruct (W GT) as ([T1 TD T2 _ T4] & IV). clear W. pose proof (proj1 (f_st _ _ Q)) as PA.
  pose proof T1 as (_ & _ & DD & _).
  assert (X : affine_ctx P D (loss_ctx e i (e_loss e (i_batch i) (s_params (o_st s))) (o_cov t) (o_inv t)
                            (s_damping (o_st t)) (s_params (o_st s)))
                         (loss_ctx e' i (e_loss e' (i_batch i) (s_params (o_st s'))) (o_cov t') (o_inv t')
                            (s_damping (o_st t')) (s_params (o_st s')))).
  { split; [exact IV|]. intros u u' UU. exact (MF _ _ _ _ _ PA UU). }
  assert (UT : undamped (p_cfg p) (s_damping (o_st t))) by (rewrite TD; exact U).
  pose proof (a_step P D (p_cfg p) DU _ _ _ _ _ _ X T1 (G _ _ (i_batch i) PA) UT) as STEP.
  destruct (apply_gradients (p_cfg p) _ (o_st t) _) as [o|x] eqn:A,
           (apply_gradients (p_cfg p) _ (o_st t') _) as [o'|x'] eqn:A'; cbn [res_rel] in STEP; try contradiction;
    [|discriminate OK].
  cbn [bind] in *. injection OK as <-. eexists. split; [reflexivity|].
  split; cbn [o_st o_cov o_inv o_burnin]; auto.
  rewrite (keeps_damping _ _ _ _ _ (proj1 U) A). exact TD.
Qed.

Theorem affine_minimize i s s' s1 : affine s s' -> minimize p e s i = Ok s1 -> good (o_cov s1) ->
  exists s1', minimize p e' s' i = Ok s1' /\ affine s1 s1'.
Proof.
  intros Q. unfold minimize.
  destruct (Nat.eqb (p_burnin p) 0); [exact (affine_full i s s' s1 Q)|].
  rewrite (f_burnin _ _ Q).
  destruct (Nat.ltb (o_burnin s) (p_burnin p)); [|exact (affine_full i s s' s1 Q)].
  intros OK _. injection OK as <-. eexists. split; [reflexivity|].
  destruct E as (LIN & _ & ST & _). destruct Q as [Q1 QD Q2 Q3 Q4]. unfold burnin_step.
  split; cbn [o_st o_cov o_inv o_burnin].
  - exact Q1.
  - exact QD.
  - rewrite Q2, (ST _ _ _ (proj1 Q1)). apply cov_moved, LIN.
  - exact Q3.
  - rewrite Q4. reflexivity.
Qed.

Lemma affine_initial params0 params0' factors inv0 inv0' : length Ls = factors ->
  (forall j, P j (params0 j) (params0' j)) ->
  (c_mtype (p_cfg p) = Adam -> forall j, D j (vscale 0 (params0 j)) (vscale 0 (params0' j))) ->
  affine (initial params0 d0 factors inv0) (initial params0' d0 factors inv0').
Proof.
  intros L V Z. unfold initial. split; cbn [o_st o_cov o_inv o_burnin s_counter].
  - split; [exact V|]. split; [|repeat split; reflexivity]. cbn. intros j. rewrite !zeros_scale.
    destruct (c_mtype (p_cfg p)); cbn [vel_kind]; try (apply (proj1 DU), V). apply Z. reflexivity.
  - reflexivity.
  - subst factors. destruct E as (LIN & _). clear E.
    induction LIN as [|l ls HL LIN IH]; [reflexivity|]. cbn. unfold moved_cov in IH.
    rewrite <- IH. f_equal. unfold mav_init. cbn. f_equal.
    pose proof (HL 0 0 (fun _ => 0) (fun _ => 0)) as ZZ. cbn beta in ZZ.
    replace (fun i : I => 0 * 0 + 0 * 0) with (fun _ : I => 0) in ZZ
      by (apply functional_extensionality; intros; ring).
    rewrite ZZ. apply functional_extensionality. intros. ring.
  - left. reflexivity.
  - reflexivity.
Qed.

Theorem affine_run params0 params0' factors inv0 inv0' inputs states :
  length Ls = factors -> (forall j, P j (params0 j) (params0' j)) ->
  (c_mtype (p_cfg p) = Adam -> forall j, D j (vscale 0 (params0 j)) (vscale 0 (params0' j))) ->
  is_run p e (initial params0 d0 factors inv0) inputs states ->
  (forall t, good (o_cov (states (S t)))) ->
  exists states', is_run p e' (initial params0' d0 factors inv0') inputs states' /\
    forall t, affine (states t) (states' t).
Proof.
  intros LW V Z [S0 RUN] GOOD.
  set (start := initial params0' d0 factors inv0').
  set (states' := fix go (t : nat) : pst I Inv :=
      match t with
      | O => start
      | S t0 => match minimize p e' (go t0) (inputs t0) with Ok s => s | Raise _ => go t0 end
      end).
  assert (ALL : forall t, affine (states t) (states' t) /\
     minimize p e' (states' t) (inputs t) = Ok (states' (S t))).
  { assert (STEP : forall t, affine (states t) (states' t) ->
        minimize p e' (states' t) (inputs t) = Ok (states' (S t)) /\ affine (states (S t)) (states' (S t))).
    { intros t Q. destruct (affine_minimize (inputs t) _ _ _ Q (RUN t) (GOOD t)) as (s1 & M & A).
      change (states' (S t)) with
        (match minimize p e' (states' t) (inputs t) with Ok s => s | Raise _ => states' t end).
      rewrite M. split; [reflexivity|exact A]. }
    intros t. induction t as [|t [Q _]].
    - assert (Q : affine (states 0%nat) (states' 0%nat)) by (rewrite S0; apply affine_initial; assumption).
      split; [exact Q|exact (proj1 (STEP 0%nat Q))].
    - destruct (STEP t Q) as [_ Q']. split; [exact Q'|exact (proj1 (STEP (S t) Q'))]. }
  exists states'. split; [split; [reflexivity|intros t; apply ALL]|intros t; apply ALL].
Qed.
End Run.

(* ------------------------------------------------------------------------ *)
(** Matrices give dual coordinates. *)
Lemma coordinates_dual n Q T : (forall j, dual_matrices (n j) (Q j) (T j)) ->
  dual (in_coordinates n Q) (in_coordinates n T).
Proof.
  intros H. split; [|split; [|split; [|split]]].
  - intros j a v v' [L ->]. split; [unfold vscale; rewrite map_length; exact L|].
    symmetry. apply matvec_scale.
  - intros j v v' w w' [L ->] [L' ->]. split; [rewrite vadd_len; congruence|].
    symmetry. apply matvec_add. congruence.
  - intros j a v v' [L ->]. split; [unfold vscale; rewrite map_length; exact L|].
    symmetry. apply matvec_scale.
  - intros j v v' w w' [L ->] [L' ->]. split; [rewrite vadd_len; congruence|].
    symmetry. apply matvec_add. congruence.
  - intros j v v' g g' [L ->] [L' ->]. apply H; assumption.
Qed.
