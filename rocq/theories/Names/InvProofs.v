(** The variables of the inverses, and the order of creation. *)
From Coq Require Import String Ascii List Arith Bool Lia QArith Reals Permutation.
From Verif.Base Require Import Py.
From Verif.Names Require Import Model Spec StringProofs ScopeProofs VarProofs.
Import ListNotations.
Open Scope string_scope.
Open Scope nat_scope.
Open Scope list_scope.

Local Arguments String.append : simpl nomatch.
Local Arguments slash : simpl never.

Definition dense_reqs (k : consts) (w : world) (here : string) (s : list nat) (r : regs) : list var :=
  map (fun p => mkVar (slash here (matpower_name w (fst p) (snd p))) s (k_inv_init k)) (r_matpower r) ++
  map (fun id => mkVar (slash here ("cholesky_damp" ++ damping_string w id)%string) s (k_inv_init k))
    (r_cholesky r) ++
  map (fun id => mkVar (slash here ("cholesky_inverse_damp" ++ damping_string w id)%string) s (k_inv_init k))
    (r_cholinv r).
Definition opt1_reqs k w here s v (id : list idpart) : list var :=
  [mkVar (slash here ("Lmat_damp" ++ damping_string w id)%string) s (k_inv_init k);
   mkVar (slash here ("psi_damp" ++ damping_string w id)%string) v Ones].
Definition opt2_reqs k w here s v (id : list idpart) : list var :=
  [mkVar (slash here ("Lmat_damp" ++ damping_string w id)%string) s (k_inv_init k);
   mkVar (slash here ("Kmat_damp" ++ damping_string w id)%string) s (k_inv_init k);
   mkVar (slash here ("mu_damp" ++ damping_string w id)%string) v Ones].
Definition multi_reqs k w here s v (r : regs) : list var :=
  concat (map (opt1_reqs k w here s v) (r_opt1 r)) ++ concat (map (opt2_reqs k w here s v) (r_opt2 r)).
Definition sua_req (k : consts) w scope here c (p : Q * list idpart) : res (list var) :=
  if negb (Qeq_bool (fst p) (- 1)) then Raise ValueError else
  Ok ([mkVar (slash here (matpower_name w (fst p) (snd p))) [c; c] (k_inv_init k);
       mkVar (slash scope ("damping_var_" ++ power_tag w p)%string) [] Zeros] ++
      if k_zero_mean k then [] else
      [mkVar (slash scope ("cov_inv_mu_" ++ power_tag w p)%string) [c; 1] Zeros;
       mkVar (slash scope ("rank_one_update_scale_" ++ power_tag w p)%string) [] Zeros]).
Definition sua_reqs k w scope here c (r : regs) : res (list var) :=
  do rqs <- mapm (sua_req k w scope here c) (r_matpower r) ; Ok (concat rqs).

Definition inv_reqs (k : consts) (w : world) (scope : string) (fr : factor * regs) : res (list var) :=
  let '(f, r) := fr in
  if diagonal_factor f then Ok [] else
  match f with
  | ConvInputSUA _ filter _ =>
      do vs <- var_scope w f ; do c <- in_channels filter ;
      sua_reqs k w scope (slash scope vs) c r
  | FCMulti _ _ _ _ =>
      do vs <- var_scope w f ; do s <- cov_shape w f ;
      do more <- (match r_opt1 r, r_opt2 r with
                  | [], [] => Ok []
                  | _, _ => do v <- vec_shape w f ; Ok (multi_reqs k w (slash scope vs) s v r)
                  end) ;
      Ok (dense_reqs k w (slash scope vs) s r ++ more)
  | _ => do vs <- var_scope w f ; do s <- cov_shape w f ; Ok (dense_reqs k w (slash scope vs) s r)
  end.

Lemma foldm_ext {A S} (f g : A -> S -> res S) l : (forall a s, f a s = g a s) ->
  forall s, foldm f l s = foldm g l s.
Proof.
  intros H. induction l as [|a l IH]; intros s; cbn; auto. rewrite H. destruct (g a s); cbn; auto.
Qed.
Lemma foldm_map {A B S} (h : A -> B) (f : B -> S -> res S) l s :
  foldm f (map h l) s = foldm (fun a => f (h a)) l s.
Proof. revert s; induction l as [|a l IH]; intros s; cbn; auto. destruct (f (h a) s); cbn; auto. Qed.
Lemma foldm_concat {A B S} (h : A -> list B) (f : B -> S -> res S) l s :
  foldm f (concat (map h l)) s = foldm (fun a => foldm f (h a)) l s.
Proof.
  revert s; induction l as [|a l IH]; intros s; cbn; auto. rewrite foldm_app.
  destruct (foldm f (h a) s); cbn; auto.
Qed.

Lemma bind_ret {A} (r : res A) : (do x <- r ; Ok x) = r.
Proof. destruct r; reflexivity. Qed.
Lemma dense_asks k w here s r st :
  dense_inv k w here s r st = foldm (ask false) (dense_reqs k w here s r) st.
Proof.
  unfold dense_inv, dense_reqs. rewrite foldm_app, foldm_map.
  match goal with |- bind ?x _ = bind ?y _ => change y with x; destruct x; cbn [bind]; auto end.
  rewrite foldm_app, foldm_map.
  match goal with |- bind ?x _ = bind ?y _ => change y with x; destruct x; cbn [bind]; auto end.
  rewrite foldm_map. reflexivity.
Qed.
Lemma multi_asks k w here s v r st :
  multi_inv k w here s v r st = foldm (ask false) (multi_reqs k w here s v r) st.
Proof.
  unfold multi_inv, multi_reqs. rewrite foldm_app, foldm_concat.
  assert (X : forall st, foldm (fun id st =>
      do st1 <- get_variable false (slash here ("Lmat_damp" ++ damping_string w id)%string) s (k_inv_init k) st ;
      get_variable false (slash here ("psi_damp" ++ damping_string w id)%string) v Ones st1) (r_opt1 r) st
    = foldm (fun a => foldm (ask false) (opt1_reqs k w here s v a)) (r_opt1 r) st).
  { apply foldm_ext. intros id q. unfold opt1_reqs. cbn [foldm]. unfold ask. cbn [v_name v_shape v_init].
    destruct (get_variable false _ s (k_inv_init k) q); cbn [bind]; auto. rewrite bind_ret. reflexivity. }
  cbn zeta. rewrite X. clear X.
  match goal with |- bind ?x _ = bind ?x _ => destruct x; cbn [bind]; auto end.
  rewrite foldm_concat. apply foldm_ext. intros id q. unfold opt2_reqs. cbn [foldm]. unfold ask.
  cbn [v_name v_shape v_init].
  destruct (get_variable false _ s (k_inv_init k) q) as [q1|]; cbn [bind]; auto.
  destruct (get_variable false _ s (k_inv_init k) q1); cbn [bind]; auto. rewrite bind_ret. reflexivity.
Qed.
Lemma sua_asks k w scope here filter r st st' :
  sua_inv k w scope here filter r st = Ok st' <->
  exists rq, (do c <- in_channels filter ; sua_reqs k w scope here c r) = Ok rq /\
    foldm (ask false) rq st = Ok st'.
Proof.
  unfold sua_inv, sua_reqs. destruct (in_channels filter) as [c|]; cbn [bind];
    [|split; [discriminate|intros (? & ? & _); discriminate]].
  rewrite (foldm_requests _ (ask false) (sua_req k w scope here c)).
  - split.
    + intros (rqs & E & F). exists (concat rqs). rewrite E. auto.
    + intros (rq & E & F). apply bind_ok in E as (rqs & E & G). apply Ok_inj in G. subst. eauto.
  - intros p s s' _. unfold sua_req. destruct (negb (Qeq_bool (fst p) (- 1)));
      [split; [discriminate|intros (? & ? & _); discriminate]|].
    fold (power_tag w p). cbn zeta.
    assert (K : forall rq, (exists q, Ok rq = Ok q /\ foldm (ask false) q s = Ok s') <->
       foldm (ask false) rq s = Ok s').
    { intros rq; split; [intros (q & [= <-] & H); auto|eauto]. }
    rewrite K. cbn [app foldm]. unfold ask at 1 2. cbn [v_name v_shape v_init].
    destruct (get_variable false _ [c; c] (k_inv_init k) s) as [q1|]; cbn [bind]; [|tauto].
    destruct (get_variable false _ [] Zeros q1) as [q2|]; cbn [bind]; [|tauto].
    destruct (k_zero_mean k); cbn [foldm]; [tauto|]. unfold ask at 1 2. cbn [v_name v_shape v_init].
    destruct (get_variable false _ [c; 1] Zeros q2) as [q3|]; cbn [bind]; [|tauto].
    rewrite bind_ret. tauto.
Qed.

Lemma instantiate_inv_asks k w scope fr st st' :
  instantiate_inv k w scope fr st = Ok st' <->
  exists rq, inv_reqs k w scope fr = Ok rq /\ foldm (ask false) rq st = Ok st'.
Proof.
  assert (K : forall rq, (exists q, Ok rq = Ok q /\ foldm (ask false) q st = Ok st') <->
     foldm (ask false) rq st = Ok st').
  { intros rq; split; [intros (q & [= <-] & H); auto|eauto]. }
  assert (D : forall f r, (do vs <- var_scope w f ; do s <- cov_shape w f ;
                           dense_inv k w (slash scope vs) s r st) = Ok st' <->
     exists rq, (do vs <- var_scope w f ; do s <- cov_shape w f ;
                 Ok (dense_reqs k w (slash scope vs) s r)) = Ok rq /\ foldm (ask false) rq st = Ok st').
  { intros f r. destruct (var_scope w f) as [vs|]; cbn [bind];
      [|split; [discriminate|intros (? & ? & _); discriminate]].
    destruct (cov_shape w f) as [s|]; cbn [bind];
      [|split; [discriminate|intros (? & ? & _); discriminate]].
    rewrite K, dense_asks. tauto. }
  destruct fr as [f r]. unfold instantiate_inv, inv_reqs.
  destruct f; cbn [diagonal_factor];
    try (rewrite K; cbn [foldm]; split; [intros [= <-]|intros [= <-]]; reflexivity);
    try apply D.
  - destruct full; [apply D|]. rewrite K. cbn [foldm]. tauto.
  - destruct (var_scope w (ConvInputSUA inputs filter bias)) as [vs|]; cbn [bind];
      [|split; [discriminate|intros (? & ? & _); discriminate]].
    apply sua_asks.
  - destruct (var_scope w (FCMulti tensors uses bias dt1)) as [vs|]; cbn [bind];
      [|split; [discriminate|intros (? & ? & _); discriminate]].
    destruct (cov_shape w (FCMulti tensors uses bias dt1)) as [s|]; cbn [bind];
      [|split; [discriminate|intros (? & ? & _); discriminate]].
    rewrite dense_asks.
    assert (E : forall X : res (list nat),
      (do st1 <- foldm (ask false) (dense_reqs k w (slash scope vs) s r) st ;
       do v <- X ; multi_inv k w (slash scope vs) s v r st1) = Ok st' <->
      exists rq, (do more <- (do v <- X ; Ok (multi_reqs k w (slash scope vs) s v r)) ;
                  Ok (dense_reqs k w (slash scope vs) s r ++ more)) = Ok rq /\
        foldm (ask false) rq st = Ok st').
    { intros [v|e]; cbn [bind].
      - rewrite K, foldm_app. destruct (foldm (ask false) _ st); cbn [bind]; [|tauto].
        rewrite multi_asks. tauto.
      - destruct (foldm (ask false) _ st); cbn [bind];
          (split; [discriminate|intros (? & ? & _); discriminate]). }
    destruct (r_opt1 r) as [|x l]; [destruct (r_opt2 r) as [|x l]|]; try apply E.
    cbn [bind]. rewrite app_nil_r, K. destruct (foldm (ask false) _ st); cbn [bind]; tauto.
Qed.

Lemma make_vars_asks k w scope frs st st' :
  make_vars k w scope frs st = Ok st' <->
  exists crqs irqs mid, mapm (cov_reqs k w scope) (map fst frs) = Ok crqs /\
    foldm (ask true) (concat crqs) st = Ok mid /\
    mapm (inv_reqs k w scope) frs = Ok irqs /\ foldm (ask false) (concat irqs) mid = Ok st'.
Proof.
  unfold make_vars. rewrite bind_ok. split.
  - intros (mid & A & B). apply make_cov_asks in A as (crqs & A1 & A2).
    apply (foldm_requests _ (ask false) (inv_reqs k w scope)) in B as (irqs & B1 & B2).
    + exists crqs, irqs, mid. auto.
    + intros. apply instantiate_inv_asks.
  - intros (crqs & irqs & mid & A1 & A2 & B1 & B2). exists mid. split.
    + apply make_cov_asks. eauto.
    + apply (foldm_requests _ (ask false) (inv_reqs k w scope)); eauto.
      intros. apply instantiate_inv_asks.
Qed.

(** The names of the requests are those the specification lists. *)
Lemma inv_reqs_names k w scope f r rq : inv_reqs k w scope (f, r) = Ok rq ->
  diagonal_factor f = true /\ rq = [] \/
  exists vs, var_scope w f = Ok vs /\
    names rq = inverse_names (k_zero_mean k) w scope (slash scope vs) f r.
Proof.
  unfold inv_reqs, inverse_names. destruct (diagonal_factor f) eqn:DF; [intros [= <-]; auto|].
  intros H. right.
  assert (DN : forall here s, names (dense_reqs k w here s r) = dense_names w here r).
  { intros. unfold dense_reqs, dense_names, names. rewrite !map_app, !map_map. reflexivity. }
  assert (D : (do vs <- var_scope w f ; do s <- cov_shape w f ;
               Ok (dense_reqs k w (slash scope vs) s r)) = Ok rq ->
    exists vs, var_scope w f = Ok vs /\ names rq = dense_names w (slash scope vs) r).
  { intros E. apply bind_ok in E as (vs & V & E). apply bind_ok in E as (s & S & E).
    apply Ok_inj in E. subst rq. exists vs. rewrite DN. auto. }
  destruct f; try (apply D; exact H).
  - apply bind_ok in H as (vs & V & H). apply bind_ok in H as (c & C & H).
    exists vs. split; auto. unfold sua_reqs in H. apply bind_ok in H as (rqs & M & E).
    apply Ok_inj in E. subst rq. unfold sua_names. clear D. revert rqs M.
    induction (r_matpower r) as [|p l IH]; intros rqs M; cbn in M.
    + injection M as <-. reflexivity.
    + apply bind_ok in M as (q & Q & M). apply bind_ok in M as (rqs' & M & E).
      apply Ok_inj in E. subst rqs. cbn [map concat]. rewrite names_app, (IH _ M). f_equal.
      unfold sua_req in Q. destruct (negb (Qeq_bool (fst p) (- 1))); [discriminate|].
      apply Ok_inj in Q. subst q. unfold names. destruct (k_zero_mean k); reflexivity.
  - apply bind_ok in H as (vs & V & H). apply bind_ok in H as (s & S & H).
    apply bind_ok in H as (more & M & H). apply Ok_inj in H. subst rq.
    exists vs. split; auto. rewrite names_app, DN. f_equal.
    assert (MN : forall v, names (multi_reqs k w (slash scope vs) s v r) = option_names w (slash scope vs) r).
    { intros v. unfold multi_reqs, option_names. rewrite names_app. unfold names.
      f_equal; rewrite concat_map, map_map; reflexivity. }
    destruct (r_opt1 r) as [|x l] eqn:O1; [destruct (r_opt2 r) as [|x l] eqn:O2|].
    + injection M as <-. unfold option_names. rewrite O1, O2. reflexivity.
    + apply bind_ok in M as (v & _ & M). apply Ok_inj in M. subst more. apply MN.
    + apply bind_ok in M as (v & _ & M). apply Ok_inj in M. subst more. apply MN.
Qed.

Lemma inverses_own k w scope frs st st' :
  make_vars k w scope frs st = Ok st' ->
  exists mid news, make_cov_vars k w scope (map fst frs) st = Ok mid /\
    st' = mid ++ concat news /\ NoDup (names (concat news)) /\
    (forall v, In v (concat news) -> ~ In (v_name v) (names mid)) /\
    Forall2 (fun fr new =>
      diagonal_factor (fst fr) = true /\ new = [] \/
      exists vs, var_scope w (fst fr) = Ok vs /\
        names new = inverse_names (k_zero_mean k) w scope (slash scope vs) (fst fr) (snd fr))
      frs news.
Proof.
  intros H. apply make_vars_asks in H as (crqs & irqs & mid & A & B & C & D).
  exists mid, irqs. split; [apply make_cov_asks; eauto|].
  apply asks_fresh in D as (-> & D1 & D2). repeat split; auto.
  apply mapm_forall2 in C. clear -C. induction C as [|[f r] rq frs irqs E C IH]; constructor; auto.
  apply inv_reqs_names in E. auto.
Qed.

(* ------------------------------------------------------------------------ *)
(** * Another order *)

Lemma mapm_perm {A B} (f : A -> res B) l m bs : Permutation l m -> mapm f l = Ok bs ->
  exists cs, mapm f m = Ok cs /\ Permutation bs cs.
Proof.
  intros P. revert bs. induction P; intros bs H.
  - exists bs; auto.
  - cbn in H. apply bind_ok in H as (b & E & H). apply bind_ok in H as (bs' & E' & H).
    injection H as <-. destruct (IHP _ E') as (cs & F & Q). exists (b :: cs). cbn. rewrite E. cbn.
    rewrite F. cbn. auto.
  - cbn in H. apply bind_ok in H as (b & E & H). apply bind_ok in H as (bs' & E' & H).
    injection H as <-. apply bind_ok in E' as (b' & E1 & H). apply bind_ok in H as (bs'' & E2 & H).
    injection H as <-. exists (b' :: b :: bs''). cbn. rewrite E, E1. cbn. rewrite E2. cbn.
    split; auto. constructor.
  - destruct (IHP1 _ H) as (cs & F & Q). destruct (IHP2 _ F) as (ds & G & R).
    exists ds. split; auto. eapply perm_trans; eauto.
Qed.
Lemma Permutation_concat' {A} (l m : list (list A)) : Permutation l m -> Permutation (concat l) (concat m).
Proof.
  induction 1; cbn; auto.
  - apply Permutation_app_head; auto.
  - rewrite !app_assoc. apply Permutation_app_tail, Permutation_app_comm.
  - eapply perm_trans; eauto.
Qed.

Lemma inv_reqs_regs k w scope f r r' rq : regs_reordered r r' ->
  inv_reqs k w scope (f, r) = Ok rq ->
  exists rq', inv_reqs k w scope (f, r') = Ok rq' /\ Permutation rq rq'.
Proof.
  intros (P1 & P2 & P3 & P4 & P5). unfold inv_reqs.
  destruct (diagonal_factor f); [intros [= <-]; exists []; auto|].
  assert (DP : forall here s, Permutation (dense_reqs k w here s r) (dense_reqs k w here s r')).
  { intros. unfold dense_reqs. repeat apply Permutation_app; apply Permutation_map; auto. }
  assert (D : forall rq, (do vs <- var_scope w f ; do s <- cov_shape w f ;
               Ok (dense_reqs k w (slash scope vs) s r)) = Ok rq ->
    exists rq', (do vs <- var_scope w f ; do s <- cov_shape w f ;
               Ok (dense_reqs k w (slash scope vs) s r')) = Ok rq' /\ Permutation rq rq').
  { intros q E. apply bind_ok in E as (vs & V & E). apply bind_ok in E as (s & S & E).
    apply Ok_inj in E. subst q. rewrite V, S. cbn [bind]. eauto. }
  destruct f; try apply D.
  - intros H. apply bind_ok in H as (vs & V & H). apply bind_ok in H as (c & C & H).
    rewrite V, C. cbn [bind]. unfold sua_reqs in *. apply bind_ok in H as (rqs & M & E).
    apply Ok_inj in E. subst rq. destruct (mapm_perm _ _ _ _ P1 M) as (rqs' & M' & Q).
    rewrite M'. cbn [bind]. eexists; split; [reflexivity|]. apply Permutation_concat'; auto.
  - intros H. apply bind_ok in H as (vs & V & H). apply bind_ok in H as (s & S & H).
    rewrite V, S. cbn [bind]. apply bind_ok in H as (more & M & H). apply Ok_inj in H. subst rq.
    assert (MP : forall v, Permutation (multi_reqs k w (slash scope vs) s v r)
                             (multi_reqs k w (slash scope vs) s v r')).
    { intros v. unfold multi_reqs.
      apply Permutation_app; apply Permutation_concat', Permutation_map; auto. }
    assert (exists more', (match r_opt1 r', r_opt2 r' with
                  | [], [] => Ok []
                  | _, _ => do v <- vec_shape w (FCMulti tensors uses bias dt1) ;
                            Ok (multi_reqs k w (slash scope vs) s v r')
                  end) = Ok more' /\ Permutation more more') as (more' & M' & Q).
    { destruct (r_opt1 r) as [|x l] eqn:O1; [destruct (r_opt2 r) as [|x l] eqn:O2|].
      - apply Permutation_nil in P4, P5. rewrite P4, P5. injection M as <-. eauto.
      - apply bind_ok in M as (v & Vv & M). apply Ok_inj in M. subst more. rewrite Vv. cbn [bind].
        destruct (r_opt1 r') as [|y m]; [destruct (r_opt2 r') as [|y m] eqn:O2'|]; eauto.
        apply Permutation_sym, Permutation_nil in P5. discriminate.
      - apply bind_ok in M as (v & Vv & M). apply Ok_inj in M. subst more. rewrite Vv. cbn [bind].
        destruct (r_opt1 r') as [|y m]; [|eauto].
        apply Permutation_sym, Permutation_nil in P4. discriminate. }
    rewrite M'. cbn [bind]. eexists; split; [reflexivity|]. apply Permutation_app; auto.
Qed.

Lemma order_of_creation k w scope frs frs' st st1 : NoDup (names st) -> reordered frs frs' ->
  make_vars k w scope frs st = Ok st1 ->
  exists st2, make_vars k w scope frs' st = Ok st2 /\ Permutation (map saved st1) (map saved st2).
Proof.
  intros D (l & P & F) H.
  apply make_vars_asks in H as (crqs & irqs & mid & A & B & C & E).
  assert (FE : map fst frs' = map fst l) by (clear -F; induction F; cbn; intuition congruence).
  destruct (mapm_perm _ _ _ _ (Permutation_map fst P) A) as (crqs' & A' & PA).
  destruct (mapm_perm _ _ _ _ P C) as (irqs1 & C1 & PC).
  assert (exists irqs', mapm (inv_reqs k w scope) frs' = Ok irqs' /\
            Permutation (concat irqs1) (concat irqs')) as (irqs' & C' & PC').
  { clear -F C1. revert irqs1 C1. induction F as [|[f r] [f' r'] l m [E R] F IH]; intros irqs1 C1.
    - exists []. cbn in C1. injection C1 as <-. auto.
    - cbn in E, R. subst f'. cbn [mapm] in *. apply bind_ok in C1 as (q & Q & C1).
      apply bind_ok in C1 as (qs & Qs & C1). apply Ok_inj in C1. subst irqs1.
      destruct (inv_reqs_regs k w scope f r r' q R Q) as (q' & Q' & Pq).
      destruct (IH _ Qs) as (qs' & Qs' & Pqs). rewrite Q'. cbn [bind]. rewrite Qs'. cbn [bind].
      eexists; split; [reflexivity|]. cbn. apply Permutation_app; auto. }
  destruct (asks_auto_perm _ (concat crqs') _ _ D (Permutation_concat' _ _ PA) B) as (mid' & B' & PM).
  destruct (asks_fresh_perm (concat irqs) (concat irqs') mid mid' st1) as (st2 & E' & PE); auto.
  { eapply perm_trans; [apply Permutation_concat'; eauto|]. exact PC'. }
  exists st2. split; auto. apply make_vars_asks. exists crqs', irqs', mid'.
  rewrite FE. auto.
Qed.

(* ------------------------------------------------------------------------ *)
(** * When it succeeds *)

Lemma inv_reqs_total k w scope f r : computable w f r -> exists rq, inv_reqs k w scope (f, r) = Ok rq.
Proof.
  intros ((vs & V) & (s & C) & X). unfold inv_reqs. destruct (diagonal_factor f); [eauto|].
  rewrite V, C. cbn [bind]. destruct f; eauto.
  - cbn [cov_shape] in C. destruct (in_channels filter) as [c|]; [|discriminate]. cbn [bind].
    unfold sua_reqs. destruct (mapm_total (sua_req k w scope (slash scope vs) c) (r_matpower r)) as (rqs & E).
    + intros p I. unfold sua_req. rewrite Forall_forall in X.
      rewrite (proj2 (Qeq_bool_iff _ _) (X p I)). cbn. eauto.
    + rewrite E. cbn [bind]. eauto.
  - destruct X as (v & X). rewrite X. cbn [bind].
    destruct (r_opt1 r); [destruct (r_opt2 r)|]; cbn [bind]; eauto.
Qed.

Lemma creation_succeeds k w scope frs st mid nss :
  make_cov_vars k w scope (map fst frs) st = Ok mid ->
  (forall f r, In (f, r) frs -> computable w f r) ->
  Forall2 (fun fr ns => exists vs, var_scope w (fst fr) = Ok vs /\
     ns = inverse_names (k_zero_mean k) w scope (slash scope vs) (fst fr) (snd fr)) frs nss ->
  NoDup (concat nss) -> (forall n, In n (concat nss) -> ~ In n (names mid)) ->
  exists st', make_vars k w scope frs st = Ok st'.
Proof.
  intros M C F D N.
  destruct (mapm_total (inv_reqs k w scope) frs) as (irqs & E).
  { intros [f r] I. apply inv_reqs_total. auto. }
  assert (NE : names (concat irqs) = concat nss).
  { pose proof (proj1 (mapm_forall2 _ _ _) E) as E'. clear -F E'. revert nss F.
    induction E' as [|[f r] rq frs irqs E E' IH]; intros nss F; inversion F as [|? ns ? nss' (vs & V & Q) F']; subst; auto.
    cbn [concat]. rewrite names_app, (IH _ F'). f_equal. cbn [fst snd] in V |- *.
    apply inv_reqs_names in E as [(DF & ->)|(vs' & V' & Q')].
    - unfold inverse_names. rewrite DF. reflexivity.
    - rewrite V in V'. injection V' as <-. exact Q'. }
  destruct (proj1 (make_cov_asks _ _ _ _ _ _) M) as (crqs & A & B).
  exists (mid ++ concat irqs). apply make_vars_asks. exists crqs, irqs, mid. repeat split; auto.
  apply asks_fresh. repeat split; auto.
  - rewrite NE. auto.
  - intros v I. apply N. rewrite <- NE. apply in_map; auto.
Qed.
