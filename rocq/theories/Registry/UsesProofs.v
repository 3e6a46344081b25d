(** Proofs about towers, declared uses and check_registration (C20, C22, C23, C28). *)
From Coq Require Import String List Arith ZArith Bool Reals Lia.
From Verif.Base Require Import Py.
From Verif.Registry Require Import Model Spec BlockProofs HistoryProofs.
Import ListNotations.
Open Scope list_scope.

(* ------------------------------------------------------------------------ *)
(** * Clean calls are all-or-nothing (C28) *)

Lemma loss_atomic scope name fresh k r c :
  (exists e, register_loss scope name fresh k r c = (c, Raise e)) \/
  (exists c', register_loss scope name fresh k r c = (c', Ok tt)).
Proof.
  unfold register_loss. destruct (c_final c); [eauto|].
  destruct (resolve scope r); destruct (find_loss _ _) as [[|t ts]|]; eauto;
    destruct (coeff_of _ _); eauto; destruct (Req_EM_T _ _); eauto.
Qed.

Lemma failed_call_unchanged shape k c c' e :
  clean_call shape k -> (forall t vs, k <> Check t vs) ->
  run_call shape k c = (c', Raise e) -> c' = c.
Proof.
  intros Hc Hn E. destruct k; cbn [run_call] in E.
  - destruct (layer_atomic shape scope l c Hc) as [(e' & E')|(a & c'' & E' & _)];
      rewrite E in E'; congruence.
  - destruct (loss_atomic scope name fresh coeff r c) as [(e' & E')|(c'' & E')];
      rewrite E in E'; congruence.
  - unfold define_linked_parameters in E. destruct existsb; [congruence|].
    destruct existsb; congruence.
  - unfold set_default in E. destruct lookup; congruence.
  - unfold finalize in E. destruct c_final; [congruence|]. destruct losses; congruence.
  - exfalso. eapply Hn. reflexivity.
Qed.

(* ------------------------------------------------------------------------ *)
(** * What a successful call does to towers and uses *)

Definition towers_at (c : coll) (p : params) : list tower :=
  match find_block (c_blocks c) p with Some b => b_towers b | None => [] end.
Definition uses_at (u : list (nat * uses)) (v : nat) : uses :=
  match uses_get u v with Some n => n | None => Fin 0 end.

Lemma uses_add_0_l n : uses_add (Fin 0) n = n.
Proof. destruct n; reflexivity. Qed.
Lemma uses_add_0_r n : uses_add n (Fin 0) = n.
Proof. destruct n; cbn; [rewrite Nat.add_0_r|]; reflexivity. Qed.
Lemma uses_add_assoc a b c : uses_add a (uses_add b c) = uses_add (uses_add a b) c.
Proof. destruct a, b, c; cbn; try reflexivity. rewrite Nat.add_assoc. reflexivity. Qed.

Lemma bump_get u w n v :
  uses_at (bump u w n) v = if Nat.eqb w v then uses_add (uses_at u v) n else uses_at u v.
Proof.
  unfold uses_at. induction u as [|[x m] u IH]; cbn [bump uses_get].
  - cbn. destruct (Nat.eqb w v); reflexivity.
  - destruct (Nat.eqb x w) eqn:E; cbn [uses_get].
    + apply Nat.eqb_eq in E. subst x. destruct (Nat.eqb w v); reflexivity.
    + destruct (Nat.eqb x v) eqn:E2; [|exact IH].
      apply Nat.eqb_eq in E2. subst x. rewrite Nat.eqb_sym, E. reflexivity.
Qed.
Lemma bumps_get vs n u v :
  uses_at (fold_left (fun u w => bump u w n) vs u) v
  = uses_add (uses_at u v)
      (fold_right uses_add (Fin 0) (map (fun w => if Nat.eqb w v then n else Fin 0) vs)).
Proof.
  revert u. induction vs as [|w vs IH]; intros u; cbn [fold_left map fold_right].
  - rewrite uses_add_0_r. reflexivity.
  - rewrite IH, bump_get, uses_add_assoc. destruct (Nat.eqb w v); [reflexivity|].
    rewrite uses_add_0_r. reflexivity.
Qed.

Lemma commits_towers scope r k a t c c' q :
  commits scope r k a t c c' ->
  towers_at c' q = towers_at c q ++ (if params_eqb (pt_params t) q then [pt_tower t] else []).
Proof.
  intros H. unfold towers_at. inversion H as [F R O|b0 F K R]; subst; cbn [c_blocks set_uses set_blocks].
  - rewrite find_app. cbn [find_block]. destruct (params_eqb (pt_params t) q) eqn:E.
    + apply params_eqb_spec in E. subst q. rewrite F. reflexivity.
    + destruct (find_block (c_blocks c) q); [rewrite app_nil_r|]; reflexivity.
  - rewrite find_append_tower. destruct (params_eqb (pt_params t) q) eqn:E.
    + apply params_eqb_spec in E. subst q. rewrite F. reflexivity.
    + rewrite app_nil_r. reflexivity.
Qed.
Lemma commits_uses scope r k a t c c' v :
  commits scope r k a t c c' ->
  uses_at (c_uses c') v = uses_add (uses_at (c_uses c) v) (declared_by t v).
Proof.
  intros H. inversion H; subst; cbn [c_uses set_uses]; apply bumps_get.
Qed.

Definition gained (k : call) (r : res unit) : list layer_call :=
  match k, r with Layer _ l, Ok _ => [l] | _, _ => [] end.
Lemma succeeded_cons shape k h c :
  succeeded shape (k :: h) c
  = gained k (snd (run_call shape k c)) ++ succeeded shape h (fst (run_call shape k c)).
Proof.
  cbn [succeeded]. destruct (run_call shape k c) as [c' r]. cbn [fst snd].
  destruct k; cbn; try reflexivity. destruct r; reflexivity.
Qed.

Lemma call_towers shape k c q :
  clean_call shape k ->
  towers_at (fst (run_call shape k c)) q
  = towers_at c q ++ towers_for (gained k (snd (run_call shape k c))) q.
Proof.
  intros Hc. destruct k;
    try (cbn [gained]; unfold towers_at; rewrite other_blocks by congruence;
         cbn; rewrite app_nil_r; reflexivity).
  cbn [run_call clean_call] in *.
  destruct (layer_atomic shape scope l c Hc) as [(e & E)|(a & c' & E & _ & t & kk & ap & P & _ & Cm)];
    rewrite E; cbn [fst snd gained].
  - cbn. rewrite app_nil_r. reflexivity.
  - rewrite (commits_towers _ _ _ _ _ _ _ q Cm). unfold towers_for. cbn [map concat].
    rewrite P. cbn [filter map]. destruct (params_eqb (pt_params t) q); reflexivity.
Qed.
Lemma towers_for_app l1 l2 q : towers_for (l1 ++ l2) q = towers_for l1 q ++ towers_for l2 q.
Proof. unfold towers_for. rewrite map_app, concat_app. reflexivity. Qed.
Lemma towers_history shape h c q :
  Forall (clean_call shape) h ->
  towers_at (after shape h c) q = towers_at c q ++ towers_for (succeeded shape h c) q.
Proof.
  revert c. induction h as [|k h IH]; intros c Hc.
  - cbn. rewrite app_nil_r. reflexivity.
  - inversion Hc; subst. rewrite after_cons, succeeded_cons, towers_for_app, IH by assumption.
    rewrite call_towers by assumption. rewrite app_assoc. reflexivity.
Qed.

Lemma declared_app l1 l2 v : declared (l1 ++ l2) v = uses_add (declared l1 v) (declared l2 v).
Proof.
  unfold declared. induction l1 as [|l l1 IH]; cbn [app map fold_right].
  - rewrite uses_add_0_l. reflexivity.
  - rewrite IH, uses_add_assoc. reflexivity.
Qed.
Lemma other_uses shape k c v :
  (forall s l, k <> Layer s l) ->
  uses_at (c_uses (fst (run_call shape k c))) v = uses_at (c_uses c) v.
Proof.
  intros N. destruct k; cbn [run_call].
  - exfalso. eapply N. reflexivity.
  - unfold register_loss. destruct (c_final c); [reflexivity|].
    destruct (resolve scope r); destruct (find_loss _ _) as [[|t ts]|]; try reflexivity;
      destruct (coeff_of _ _); try reflexivity; destruct (Req_EM_T _ _); reflexivity.
  - unfold define_linked_parameters. destruct existsb; [reflexivity|]. destruct existsb; reflexivity.
  - unfold set_default. destruct lookup; reflexivity.
  - unfold finalize. destruct c_final; [reflexivity|]. destruct losses; reflexivity.
  - unfold check_registration. destruct (_ && _); [reflexivity|].
    destruct check_loop as [u errs] eqn:E. cbn.
    clear N. revert E. generalize 0 as er. generalize (c_uses c) as u0.
    induction vs as [|w vs IH]; cbn; intros u0 er E.
    + congruence.
    + destruct (uses_lookup u0 w) as [u1 n] eqn:L. apply IH in E. rewrite E.
      unfold uses_lookup in L. destruct (uses_get u0 w) eqn:G; inversion L; subst; [reflexivity|].
      unfold uses_at. clear -G. induction u0 as [|[x m] u0 IH]; cbn in *.
      * destruct (Nat.eqb w v); reflexivity.
      * destruct (Nat.eqb x v); [reflexivity|]. destruct (Nat.eqb x w); [discriminate|auto].
Qed.
Lemma call_uses shape k c v :
  clean_call shape k ->
  uses_at (c_uses (fst (run_call shape k c))) v
  = uses_add (uses_at (c_uses c) v) (declared (gained k (snd (run_call shape k c))) v).
Proof.
  intros Hc. destruct k;
    try (cbn [gained]; rewrite other_uses by congruence; cbn; rewrite uses_add_0_r; reflexivity).
  cbn [run_call clean_call] in *.
  destruct (layer_atomic shape scope l c Hc) as [(e & E)|(a & c' & E & _ & t & kk & ap & P & _ & Cm)];
    rewrite E; cbn [fst snd gained].
  - cbn. rewrite uses_add_0_r. reflexivity.
  - rewrite (commits_uses _ _ _ _ _ _ _ v Cm). unfold declared. cbn [map fold_right].
    rewrite P. cbn [map fold_right]. rewrite !uses_add_0_r. reflexivity.
Qed.
Lemma uses_history shape h c v :
  Forall (clean_call shape) h ->
  uses_at (c_uses (after shape h c)) v
  = uses_add (uses_at (c_uses c) v) (declared (succeeded shape h c) v).
Proof.
  revert c. induction h as [|k h IH]; intros c Hc.
  - cbn. rewrite uses_add_0_r. reflexivity.
  - inversion Hc; subst. rewrite after_cons, succeeded_cons, declared_app, IH by assumption.
    rewrite call_uses by assumption. rewrite uses_add_assoc. reflexivity.
Qed.

(* ------------------------------------------------------------------------ *)
(** * The keys of the use table *)

Lemma bump_keys_In u w n v : In v (map fst (bump u w n)) <-> In v (map fst u) \/ v = w.
Proof.
  induction u as [|[x m] u IH]; cbn.
  - split; intros [H|H]; subst; auto.
  - destruct (Nat.eqb x w) eqn:E; cbn.
    + apply Nat.eqb_eq in E. subst. intuition.
    + rewrite IH. intuition.
Qed.
Lemma bump_keys_NoDup u w n : NoDup (map fst u) -> NoDup (map fst (bump u w n)).
Proof.
  induction u as [|[x m] u IH]; cbn; intros N.
  - constructor; [auto|constructor].
  - inversion N; subst. destruct (Nat.eqb x w) eqn:E; cbn; [constructor; assumption|].
    constructor; [|auto]. rewrite bump_keys_In. intros [H|H]; [contradiction|].
    subst. rewrite Nat.eqb_refl in E. discriminate.
Qed.
Lemma bumps_keys vs n u :
  NoDup (map fst u) ->
  NoDup (map fst (fold_left (fun u w => bump u w n) vs u)) /\
  forall v, In v (map fst (fold_left (fun u w => bump u w n) vs u)) <-> In v (map fst u) \/ In v vs.
Proof.
  revert u. induction vs as [|w vs IH]; cbn; intros u N.
  - split; [assumption|]. tauto.
  - destruct (IH (bump u w n) (bump_keys_NoDup _ _ _ N)) as [N' K]. split; [assumption|].
    intros v. rewrite K, bump_keys_In. intuition.
Qed.

Definition Tab (c : coll) : Prop :=
  NoDup (map fst (c_uses c)) /\
  forall v, In v (map fst (c_uses c)) <-> In v (registered (c_blocks c)).

Lemma registered_app bs bs' : registered (bs ++ bs') = registered bs ++ registered bs'.
Proof. unfold registered. rewrite map_app, concat_app. reflexivity. Qed.
Lemma registered_keys bs bs' : map fst bs = map fst bs' -> registered bs = registered bs'.
Proof.
  intros H. unfold registered. rewrite <- !(map_map fst vars_of), H. reflexivity.
Qed.
Lemma find_registered bs p b v :
  find_block bs p = Some b -> In v (vars_of p) -> In v (registered bs).
Proof. intros F V. apply registered_spec. apply find_block_In in F. eauto. Qed.

Lemma commits_Tab scope r k a t c c' : commits scope r k a t c c' -> Tab c -> Tab c'.
Proof.
  intros H [N K]. destruct (bumps_keys (vars_of (pt_params t)) (pt_uses t) (c_uses c) N) as [N' K'].
  inversion H as [F R O|b0 F Kk R]; subst; split; try exact N'; intros v; cbn [c_uses c_blocks set_uses set_blocks].
  - unfold uses_after. rewrite K', K, registered_app, in_app_iff. cbn. rewrite app_nil_r. tauto.
  - unfold uses_after. rewrite K', K.
    rewrite (registered_keys _ _ (append_tower_keys (c_blocks c) (pt_params t) (pt_tower t))).
    split; [|tauto]. intros [I|I]; [assumption|]. eapply find_registered; eauto.
Qed.

Lemma other_uses_same shape k c :
  (forall s l, k <> Layer s l) -> (forall t vs, k <> Check t vs) ->
  c_uses (fst (run_call shape k c)) = c_uses c.
Proof.
  intros N N'. destruct k; cbn [run_call].
  - exfalso. eapply N. reflexivity.
  - unfold register_loss. destruct (c_final c); [reflexivity|].
    destruct (resolve scope r); destruct (find_loss _ _) as [[|t ts]|]; try reflexivity;
      destruct (coeff_of _ _); try reflexivity; destruct (Req_EM_T _ _); reflexivity.
  - unfold define_linked_parameters. destruct existsb; [reflexivity|]. destruct existsb; reflexivity.
  - unfold set_default. destruct lookup; reflexivity.
  - unfold finalize. destruct c_final; [reflexivity|]. destruct losses; reflexivity.
  - exfalso. eapply N'. reflexivity.
Qed.

Lemma Tab_history shape h :
  Forall (clean_call shape) h -> no_check h -> Tab (after shape h initial).
Proof.
  assert (G : forall c, Tab c -> Forall (clean_call shape) h -> no_check h -> Tab (after shape h c)).
  { unfold no_check. induction h as [|k h IH]; intros c T Hc Hn; [assumption|].
    inversion Hc as [|? ? C1 C2]; inversion Hn as [|? ? N1 N2]; subst. rewrite after_cons. apply IH; auto.
    destruct k; try (unfold Tab; rewrite other_blocks, other_uses_same by congruence; exact T).
    cbn [run_call clean_call] in *.
      destruct (layer_atomic shape scope l c C1) as [(e & E)|(a & c' & E & _ & t & kk & ap & P & _ & Cm)];
        rewrite E; cbn [fst]; [assumption|]. eapply commits_Tab; eauto.
    }
  intros. apply G; auto. split; [constructor|]. intros v; split; intros [].
Qed.

Lemma uses_get_In u v n : NoDup (map fst u) -> (uses_get u v = Some n <-> In (v, n) u).
Proof.
  induction u as [|[x m] u IH]; cbn; intros N; [split; [discriminate|tauto]|].
  inversion N; subst. destruct (Nat.eqb x v) eqn:E.
  - apply Nat.eqb_eq in E. subst x. split.
    + intros [= ->]. auto.
    + intros [[= ->]|I]; [reflexivity|]. exfalso. apply H1. apply in_map_iff. exists (v, n). auto.
  - rewrite IH by assumption. split; [auto|]. intros [[= -> ->]|I]; [|assumption].
    rewrite Nat.eqb_refl in E. discriminate.
Qed.
Lemma uses_get_key u v : In v (map fst u) <-> uses_get u v <> None.
Proof.
  induction u as [|[x m] u IH]; cbn; [tauto|].
  destruct (Nat.eqb x v) eqn:E.
  - apply Nat.eqb_eq in E. subst. split; [discriminate|auto].
  - rewrite <- IH. split; [|auto]. intros [->|I]; [|assumption].
    rewrite Nat.eqb_refl in E. discriminate.
Qed.

(* ------------------------------------------------------------------------ *)
(** * check_registration *)

(** With every listed variable in the table, the loop leaves the table alone and
    counts the wrong ones. *)
Lemma check_loop_errors total vs u e :
  e <= snd (check_loop total vs u e).
Proof.
  revert u e. induction vs as [|v vs IH]; cbn; intros u e; [lia|].
  destruct (uses_lookup u v) as [u' n]. destruct (wrong_uses n (total v)).
  - specialize (IH u' (S e)). lia.
  - apply IH.
Qed.
Lemma check_loop_ok total vs u :
  (exists u', check_loop total vs u 0 = (u', 0)) <->
  (forall v, In v vs -> wrong_uses (uses_at u v) (total v) = false).
Proof.
  revert u. induction vs as [|v vs IH]; cbn [check_loop]; intros u.
  - split; [intros _ v []|eauto].
  - assert (L : uses_lookup u v = (fst (uses_lookup u v), uses_at u v)).
    { unfold uses_lookup, uses_at. destruct (uses_get u v); reflexivity. }
    assert (U : forall w, uses_at (fst (uses_lookup u v)) w = uses_at u w).
    { intros w. unfold uses_lookup, uses_at. destruct (uses_get u v) eqn:G; [reflexivity|]. cbn [fst].
      clear -G. induction u as [|[x m] u IH]; cbn in *.
      - destruct (Nat.eqb v w); reflexivity.
      - destruct (Nat.eqb x w); [reflexivity|]. destruct (Nat.eqb x v); [discriminate|auto]. }
    rewrite L. destruct (wrong_uses (uses_at u v) (total v)) eqn:W.
    + split.
      * intros (u' & E). pose proof (check_loop_errors total vs (fst (uses_lookup u v)) 1) as X.
        rewrite E in X. cbn in X. lia.
      * intros H. specialize (H v (or_introl eq_refl)). congruence.
    + rewrite IH. setoid_rewrite U. split.
      * intros H w [->|I]; auto.
      * intros H w I. apply H. right; assumption.
Qed.
Lemma wrong_uses_ok n t : wrong_uses n t = false <-> n <> Fin 0 /\ (n = Inf \/ n = Fin t).
Proof.
  destruct n as [[|n]|]; cbn [wrong_uses].
  - split; [congruence|]. intros [H _]. congruence.
  - rewrite negb_false_iff, Nat.eqb_eq. split.
    + intros <-. split; [congruence|auto].
    + intros [_ [H|H]]; congruence.
  - split; [|reflexivity]. intros _. split; [congruence|auto].
Qed.
Lemma check_loop_table total vs u e :
  (forall v, In v vs -> In v (map fst u)) -> fst (check_loop total vs u e) = u.
Proof.
  revert e. induction vs as [|v vs IH]; cbn; intros e H; [reflexivity|].
  unfold uses_lookup. assert (K : In v (map fst u)) by (apply H; auto).
  apply uses_get_key in K. destruct (uses_get u v); [|congruence]. apply IH. auto.
Qed.

Lemma check_ok_iff total vs c :
  c_final c = true ->
  NoDup (map fst (c_uses c)) ->
  NoDup vs ->
  (forall v, In v (map fst (c_uses c)) -> uses_at (c_uses c) v <> Fin 0) ->
  (snd (check_registration total vs c) = Ok tt <->
   (forall v, In v vs <-> In v (map fst (c_uses c))) /\
   (forall v, In v vs -> uses_at (c_uses c) v = Inf \/ uses_at (c_uses c) v = Fin (total v))).
Proof.
  intros F Nu Nv Z. unfold check_registration. rewrite F. cbn [negb andb].
  destruct (check_loop total vs (c_uses c) 0) as [u er] eqn:E. cbn [snd].
  pose proof (check_loop_ok total vs (c_uses c)) as Lo. rewrite E in Lo.
  split.
  - intros H.
    assert (er = 0 /\ ~ length vs < length u) as [-> Ln].
    { destruct (Nat.ltb (length vs) (length u)) eqn:Lt.
      - cbn in H. discriminate.
      - apply Nat.ltb_ge in Lt. destruct (Nat.eqb er 0) eqn:Z0; [|discriminate].
        apply Nat.eqb_eq in Z0. split; [assumption|lia]. }
    destruct Lo as [Lo _]. specialize (Lo (ex_intro _ u eq_refl)).
    assert (Sub : forall v, In v vs -> In v (map fst (c_uses c))).
    { intros v I. apply Lo in I. apply wrong_uses_ok in I as [I _].
      apply uses_get_key. unfold uses_at in I. destruct (uses_get _ v); congruence. }
    pose proof (check_loop_table total vs (c_uses c) 0 Sub) as T. rewrite E in T. cbn in T. subst u.
    split.
    + intros v. split; [apply Sub|]. intros I.
      apply (@NoDup_length_incl nat vs (map fst (c_uses c)) Nv); [rewrite map_length; lia | exact Sub | exact I].
    + intros v I. apply Lo in I. apply wrong_uses_ok in I. tauto.
  - intros [K G].
    assert (Lo' : forall v, In v vs -> wrong_uses (uses_at (c_uses c) v) (total v) = false).
    { intros v I. apply wrong_uses_ok. split; [apply Z, K, I | apply G, I]. }
    apply Lo in Lo' as (u' & E'). injection E' as -> ->.
    pose proof (check_loop_table total vs (c_uses c) 0 (fun v I => proj1 (K v) I)) as T.
    rewrite E in T. cbn in T. subst u'.
    assert (L : length (c_uses c) <= length vs).
    { rewrite <- (map_length fst). apply NoDup_incl_length; [assumption|]. intros v I. apply K, I. }
    replace (Nat.ltb (length vs) (length (c_uses c))) with false by (symmetry; apply Nat.ltb_ge; lia).
    reflexivity.
Qed.

(** Declared uses of registered variables are never zero. *)
Lemma uses_add_pos a b : uses_add a b <> Fin 0 <-> a <> Fin 0 \/ b <> Fin 0.
Proof.
  destruct a as [[|a]|], b as [[|b]|]; cbn; split; intros H; try congruence;
    try (left; congruence); try (right; congruence); try (destruct H; congruence).
Qed.
Definition Pos (c : coll) : Prop :=
  forall v, In v (registered (c_blocks c)) -> uses_at (c_uses c) v <> Fin 0.
Lemma declared_by_pos t v :
  pt_uses t <> Fin 0 -> In v (vars_of (pt_params t)) -> declared_by t v <> Fin 0.
Proof.
  intros P. unfold declared_by. induction (vars_of (pt_params t)) as [|w vs IH]; cbn; [tauto|].
  intros [->|I]; apply uses_add_pos; [left; rewrite Nat.eqb_refl; assumption | right; auto].
Qed.
Lemma commits_Pos scope r k a t c c' :
  pt_uses t <> Fin 0 -> commits scope r k a t c c' -> Pos c -> Pos c'.
Proof.
  intros P H Q v I. rewrite (commits_uses _ _ _ _ _ _ _ v H). apply uses_add_pos.
  inversion H as [F R O|b0 F Kk R]; subst; cbn [c_blocks set_uses set_blocks] in I.
  - rewrite registered_app, in_app_iff in I. destruct I as [I|I]; [left; auto|].
    right. apply declared_by_pos; [assumption|]. cbn in I. rewrite app_nil_r in I. assumption.
  - rewrite (registered_keys _ _ (append_tower_keys _ _ _)) in I. left. auto.
Qed.
Lemma Pos_history shape h :
  Forall (clean_call shape) h -> Forall used h -> Pos (after shape h initial).
Proof.
  assert (G : forall c, Pos c -> Forall (clean_call shape) h -> Forall used h -> Pos (after shape h c)).
  { induction h as [|k h IH]; intros c T Hc Hn; [assumption|].
    inversion Hc as [|? ? C1 C2]; inversion Hn as [|? ? N1 N2]; subst. rewrite after_cons. apply IH; auto.
    destruct k;
      try (intros v; rewrite other_blocks, other_uses by congruence; apply T).
    cbn [run_call clean_call] in *.
    destruct (layer_atomic shape scope l c C1) as [(e & E)|(a & c' & E & _ & t & kk & ap & P & _ & Cm)];
      rewrite E; cbn [fst]; [assumption|]. eapply commits_Pos; eauto.
    destruct l; try destruct C1; cbn in P; injection P as <-; cbn in *; congruence. }
  intros. apply G; auto. intros v [].
Qed.

Lemma check_exact shape h total vs :
  let c := after shape h initial in
  Forall (clean_call shape) h -> no_check h -> Forall used h ->
  c_final c = true -> NoDup vs ->
  (snd (check_registration total vs c) = Ok tt <->
   (forall v, In v vs <-> exists p, owns c p v) /\
   (forall v, In v vs -> declared (succeeded shape h initial) v = Inf \/
                         declared (succeeded shape h initial) v = Fin (total v))).
Proof.
  intros c Hc Hn Hu F N. destruct (Tab_history shape h Hc Hn) as [Nt Kt].
  pose proof (Pos_history shape h Hc Hu) as Ps.
  assert (D : forall v, uses_at (c_uses c) v = declared (succeeded shape h initial) v).
  { intros v. subst c. rewrite uses_history by assumption. cbn. apply uses_add_0_l. }
  assert (O : forall v, In v (map fst (c_uses c)) <-> exists p, owns c p v).
  { intros v. etransitivity; [exact (Kt v)|]. rewrite registered_spec. unfold owns. split.
    - intros (p & b & ? & ?). eauto.
    - intros (p & b & ? & ?). eauto. }
  rewrite check_ok_iff; auto.
  - setoid_rewrite O. setoid_rewrite D. reflexivity.
  - intros v I. apply Ps. apply Kt. assumption.
Qed.

(** A check that passes changes nothing; a repeated check repeats its answer. *)
Lemma set_uses_same c : set_uses (c_uses c) c = c.
Proof. destruct c; reflexivity. Qed.
Lemma check_pass_still total vs c c' :
  check_registration total vs c = (c', Ok tt) -> c' = c.
Proof.
  unfold check_registration. destruct (_ && _); [discriminate|].
  destruct (check_loop total vs (c_uses c) 0) as [u er] eqn:E. intros [= <- H].
  assert (er = 0) as ->.
  { destruct (Nat.ltb _ _); [cbn in H; discriminate|]. destruct (Nat.eqb er 0) eqn:Z; [|discriminate].
    apply Nat.eqb_eq in Z. assumption. }
  destruct (check_loop_ok total vs (c_uses c)) as [Lo _]. specialize (Lo (ex_intro _ u E)).
  assert (T := check_loop_table total vs (c_uses c) 0).
  rewrite E in T. cbn in T. rewrite T; [apply set_uses_same|].
  intros v I. apply Lo in I. apply wrong_uses_ok in I as [I _].
  apply uses_get_key. unfold uses_at in I. destruct (uses_get _ v); congruence.
Qed.
Lemma check_fail_again total vs c c' e :
  check_registration total vs c = (c', Raise e) ->
  exists c'', check_registration total vs c' = (c'', Raise e).
Proof.
  unfold check_registration. destruct (negb (c_final c) && _) eqn:B.
  - intros [= <- <-]. rewrite B. eauto.
  - destruct (check_loop total vs (c_uses c) 0) as [u er] eqn:E. intros [= <- H].
    cbn [c_final set_uses c_uses]. rewrite B.
    destruct (check_loop total vs u 0) as [u2 er2] eqn:E2.
    (* every listed variable is now in the table *)
    assert (Mono : forall vs u0 e0 v, In v (map fst u0) -> In v (map fst (fst (check_loop total vs u0 e0)))).
    { clear. induction vs as [|w vs IH]; cbn; intros u0 e0 v I; [assumption|].
      destruct (uses_lookup u0 w) as [u1 n] eqn:L. apply IH.
      unfold uses_lookup in L. destruct (uses_get u0 w); inversion L; subst; [assumption|].
      rewrite map_app, in_app_iff. auto. }
    assert (All : forall v, In v vs -> In v (map fst u)).
    { clear - E Mono. revert E. generalize (c_uses c) as u0. generalize 0 as e0.
      induction vs as [|w vs IH]; intros e0 u0 E v I; [destruct I|].
      cbn in E. destruct (uses_lookup u0 w) as [u1 n] eqn:L.
      destruct I as [->|I]; [|eapply IH; eauto].
      replace u with (fst (check_loop total vs u1 (if wrong_uses n (total v) then S e0 else e0)))
        by (rewrite E; reflexivity).
      apply Mono. unfold uses_lookup in L. destruct (uses_get u0 v) eqn:G; inversion L; subst.
      - apply uses_get_key. congruence.
      - rewrite map_app, in_app_iff. right. cbn. auto. }
    pose proof (check_loop_table total vs u 0 All) as T. rewrite E2 in T. cbn in T. subst u2.
    assert (U : forall v, uses_at u v = uses_at (c_uses c) v).
    { intros v. pose proof (other_uses (fun _ => []) (Check total vs) c v) as X.
      cbn [run_call] in X. unfold check_registration in X. rewrite B, E in X. cbn in X.
      apply X. congruence. }
    assert (Er : er <> 0 -> er2 <> 0).
    { intros Hne ->. apply Hne. clear Hne.
      destruct (check_loop_ok total vs u) as [Lo _]. specialize (Lo (ex_intro _ u E2)).
      destruct (check_loop_ok total vs (c_uses c)) as [_ Lo'].
      destruct Lo' as (u' & Lo'); [|rewrite E in Lo'; congruence].
      intros v I. rewrite <- U. auto. }
    eexists. f_equal. destruct (Nat.ltb (length vs) (length u)) eqn:Lt.
    + cbn in *. congruence.
    + destruct (Nat.eqb er 0) eqn:Z; [discriminate|]. apply Nat.eqb_neq in Z.
      apply Er in Z. apply Nat.eqb_neq in Z. rewrite Z. assumption.
Qed.
