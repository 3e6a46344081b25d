(** Layers, settings and the two factors of the same name. *)
From Coq Require Import String Ascii List Arith Bool Lia QArith Reals Permutation.
From Verif.Base Require Import Py.
From Verif.Names Require Import Model Spec StringProofs ScopeProofs VarProofs StatProofs InvProofs RelabelProofs.
Import ListNotations.
Open Scope string_scope.
Open Scope nat_scope.
Open Scope list_scope.

Local Arguments String.append : simpl nomatch.
Local Arguments slash : simpl never.

Lemma processed st i g : st = "concat" \/ st = "separate" ->
  (forall d, In d (i :: g) -> d <> []) -> exists i' g', process_data st i g = Ok (i', g') /\
    (st = "separate" -> i' = map OTensor i /\ g' = map (map OTensor) g).
Proof.
  intros [-> | ->] N; unfold process_data; cbn.
  - unfold parts. assert (I := N i (or_introl eq_refl)). destruct i as [|a i]; [congruence|]. cbn [bind].
    destruct (mapm_total (fun g : list nat => do o <- match g with [] => Raise ValueError | _ :: _ => Ok (OParts g) end; Ok [o]) g)
      as (gs & E).
    + intros d D. assert (X := N d (or_intror D)). destruct d; [congruence|]. cbn. eauto.
    + rewrite E. cbn [bind]. eexists _, _. split; [reflexivity|]. discriminate.
  - eexists _, _. split; [reflexivity|]. auto.
Qed.

Lemma layer_named w st l : st = "concat" \/ st = "separate" ->
  (forall d, In d (data_of l) -> d <> []) -> (scale_and_shift l -> st = "separate") ->
  exists fs, layer_factors st l = Ok fs /\ fs <> [] /\
    forall f, In f fs -> exists vs, var_scope w f = Ok vs.
Proof.
  intros S N SS. destruct l; cbn [data_of] in N;
    try (destruct (processed st _ _ S N) as (i' & g' & E & K));
    cbn [layer_factors]; rewrite ?E; cbn [bind];
    (eexists; split; [reflexivity|split; [discriminate|]]; intros f I; cbn [In] in I;
     repeat (destruct I as [<- |I]); try tauto;
     apply named; repeat match goal with |- context [if ?b then _ else _] => destruct b end; eauto).
  destruct (K (SS Logic.I)) as [-> ->]. eauto.
Qed.

Lemma scale_shift_unnamed k w scope full i g bs bh h st :
  (forall d, In d (i :: g) -> d <> []) ->
  exists f, layer_factors "concat" (LScaleShift full i g bs bh h) = Ok [f] /\
    make_cov_vars k w scope [f] st = Raise AttributeError.
Proof.
  intros N. cbn. unfold parts. assert (I := N i (or_introl eq_refl)). destruct i as [|a i]; [congruence|].
  cbn [bind].
  destruct (mapm_total (fun g : list nat => do o <- match g with [] => Raise ValueError | _ :: _ => Ok (OParts g) end; Ok [o]) g)
    as (gs & E).
  { intros d D. assert (X := N d (or_intror D)). destruct d; [congruence|]. cbn. eauto. }
  rewrite E. cbn [bind]. eexists. split; [reflexivity|]. reflexivity.
Qed.

(* ------------------------------------------------------------------------ *)

Lemma last_fold {A} (get : consts -> A) (arg : call -> option A) :
  (forall k c, get (do_call k c) = upd (arg c) (get k)) ->
  forall cs k, get (fold_left do_call cs k) = last_given (map arg cs) (get k).
Proof.
  intros H cs. induction cs as [|c cs IH]; intros k; cbn; auto.
  rewrite IH, H. destruct (arg c); reflexivity.
Qed.
Lemma kept_fold {A} (get : consts -> A) : (forall k c, get (do_call k c) = get k) ->
  forall cs k, get (fold_left do_call cs k) = get k.
Proof. intros H cs. induction cs as [|c cs IH]; intros k; cbn; auto. rewrite IH, H. reflexivity. Qed.

Lemma settings cs : let k := after_calls cs in
  k_init_cov_zero k = last_given (map c_init_cov_zero cs) true /\
  k_zero_debias k = last_given (map c_zero_debias cs) true /\
  k_init_inv_zero k = last_given (map c_init_inv_zero cs) true /\
  k_zero_mean k = last_given (map c_zero_mean cs) false /\
  k_sub_inputs k = last_given (map c_sub_inputs cs) false /\
  k_sub_patches k = last_given (map c_sub_patches cs) false /\
  k_strategy k = last_given (map c_strategy cs) "separate".
Proof.
  unfold after_calls. repeat split.
  - apply (last_fold k_init_cov_zero c_init_cov_zero); reflexivity.
  - apply (last_fold k_zero_debias c_zero_debias); reflexivity.
  - apply (last_fold k_init_inv_zero c_init_inv_zero); reflexivity.
  - apply (last_fold k_zero_mean c_zero_mean); reflexivity.
  - apply (last_fold k_sub_inputs c_sub_inputs); reflexivity.
  - apply (last_fold k_sub_patches c_sub_patches); reflexivity.
  - apply (last_fold k_strategy c_strategy); reflexivity.
Qed.
Lemma initializers cs f : cov_initializer (after_calls cs) f = Zeros /\ k_inv_init (after_calls cs) = Zeros.
Proof.
  assert (A : k_inv_init (after_calls cs) = Zeros) by (apply (kept_fold k_inv_init); reflexivity).
  assert (B : k_cov_init (after_calls cs) = Zeros) by (apply (kept_fold k_cov_init); reflexivity).
  assert (C : k_diag_init (after_calls cs) = Zeros) by (apply (kept_fold k_diag_init); reflexivity).
  split; auto. unfold cov_initializer. destruct f; auto. destruct full; auto.
Qed.

(** Everything that is created starts at zero, but for the vectors of the two options. *)
Definition zero (v : var) : Prop := v_init v = Zeros.
Lemma mapm_source {A B} (f : A -> res B) l bs b : mapm f l = Ok bs -> In b bs ->
  exists a, In a l /\ f a = Ok b.
Proof.
  intros M. apply mapm_forall2 in M. induction M; intros []; subst.
  - exists x. simpl; auto.
  - destruct IHM as (a & ? & ?); auto. exists a. simpl; auto.
Qed.
Lemma all_zero cs w scope frs st st' : NoDup (names st) ->
  make_vars (after_calls cs) w scope frs st = Ok st' ->
  (forall fr, In fr frs -> r_opt1 (snd fr) = [] /\ r_opt2 (snd fr) = []) ->
  forall v, In v st' -> In v st \/ v_init v = Zeros.
Proof.
  intros ND M O v I. apply make_vars_asks in M as (crqs & irqs & mid & A & B & C & D).
  apply asks_fresh in D as (-> & _ & _). apply in_app_or in I as [I|I].
  - apply asks_auto in B as ((new & -> & S) & _); auto. apply in_app_or in I as [I|I]; auto. right.
    apply S in I. apply in_concat in I as (rq & R & J).
    destruct (mapm_source _ _ _ _ A R) as (f & _ & E).
    unfold cov_reqs in E. apply bind_ok in E as (vs & _ & E). apply bind_ok in E as (s & _ & E).
    apply Ok_inj in E. subst rq. revert J. rewrite (proj1 (initializers cs f)).
    intros J. apply in_app_or in J as [J|J].
    + destruct J as [<-|[<-|[]]]; reflexivity.
    + destruct f; try destruct J.
      * destruct (k_zero_mean _); [destruct J|]. destruct (in_channels filter); [|destruct J].
        destruct J as [<-|[<-|[]]]; reflexivity.
      * destruct dt1; [|destruct J]. destruct J as [<-|[<-|[]]]; reflexivity.
  - right. apply in_concat in I as (rq & R & J).
    destruct (mapm_source _ _ _ _ C R) as ([f r] & Fi & E). destruct (O _ Fi) as [O1 O2]. cbn in O1, O2.
    assert (Z : k_inv_init (after_calls cs) = Zeros) by apply (initializers cs f).
    unfold inv_reqs in E. destruct (diagonal_factor f); [injection E as <-; destruct J|].
    assert (DZ : forall here s v, In v (dense_reqs (after_calls cs) w here s r) -> v_init v = Zeros).
    { intros here s u. unfold dense_reqs. rewrite Z, !in_app_iff, !in_map_iff.
      intros [(x & <- & _)|[(x & <- & _)|(x & <- & _)]]; reflexivity. }
    assert (G : (do vs <- var_scope w f ; do s <- cov_shape w f ;
                 Ok (dense_reqs (after_calls cs) w (slash scope vs) s r)) = Ok rq -> v_init v = Zeros).
    { intros E'. apply bind_ok in E' as (vs & _ & E'). apply bind_ok in E' as (s & _ & E').
      apply Ok_inj in E'. subst rq. eauto. }
    destruct f; try (apply G; exact E).
    + apply bind_ok in E as (vs & _ & E). apply bind_ok in E as (c & _ & E). unfold sua_reqs in E.
      apply bind_ok in E as (rqs & E & K). apply Ok_inj in K. subst rq.
      apply in_concat in J as (q & Q & J). destruct (mapm_source _ _ _ _ E Q) as (p & _ & P).
      unfold sua_req in P. destruct (negb _); [discriminate|]. apply Ok_inj in P. subst q.
      rewrite Z in J. destruct J as [<-|[<-|J]]; auto.
      destruct (k_zero_mean _); [destruct J|]. destruct J as [<-|[<-|[]]]; reflexivity.
    + rewrite O1, O2 in E. apply bind_ok in E as (vs & _ & E). apply bind_ok in E as (s & _ & E).
      cbn [bind] in E. apply Ok_inj in E. subst rq. rewrite app_nil_r in J. eauto.
Qed.

(* ------------------------------------------------------------------------ *)
(** Two factors that share their variables see each other's statistics. *)
Lemma shared_value k vw x y d m : k_zero_debias k = true -> fst vw <> snd vw ->
  m (fst vw) = 0%R -> m (snd vw) = 0%R ->
  value k vw (add_to_average vw y d 1 (add_to_average vw x d 1 m)) = ((d * x + y) / (d + 1))%R.
Proof.
  intros K N A B. unfold value, add_to_average. rewrite K.
  assert (E : String.eqb (snd vw) (fst vw) = false) by (apply String.eqb_neq; congruence).
  rewrite !String.eqb_refl, E, !A, !B. f_equal; ring.
Qed.

(** When a mean is kept. *)
Lemma mean_kept k w scope i fl b st st' vs : NoDup (names st) ->
  make_cov_vars k w scope [ConvInputSUA i fl b] st = Ok st' ->
  var_scope w (ConvInputSUA i fl b) = Ok vs ->
  (forall v, In v st -> ~ begins (slash (slash scope vs) "mu/") (v_name v)) ->
  (In (slash (slash scope vs) "mu/var") (names st') <-> k_zero_mean k = false).
Proof.
  intros ND M V N. apply make_cov_asks in M as (rqs & E & F).
  cbn [mapm] in E. apply bind_ok in E as (rq & E & G). cbn [bind] in G. apply Ok_inj in G. subst rqs.
  cbn [concat] in F. rewrite app_nil_r in F. apply asks_auto in F as ((new & -> & S) & _ & T); auto.
  unfold cov_reqs in E. rewrite V in E. cbn [bind] in E. apply bind_ok in E as (s & C & E).
  apply Ok_inj in E. subst rq. cbn [cov_shape] in C.
  destruct (in_channels fl) as [c|] eqn:IC; [|discriminate].
  assert (A : forall x y a, slash (slash a x) y = slash a (slash x y)).
  { intros. unfold slash. rewrite !sapp_assoc. reflexivity. }
  split.
  - intros I. rewrite names_app in I. apply in_app_or in I as [I|I].
    + apply in_map_iff in I as (v & E & I). exfalso. apply (N v I). rewrite E. exists "var".
      unfold slash. rewrite !sapp_assoc. reflexivity.
    + apply in_map_iff in I as (v & E & I). apply S in I. destruct (k_zero_mean k); auto. exfalso.
      rewrite app_nil_r in I. unfold slash in E.
      destruct I as [<-|[<-|[]]]; cbn [v_name] in E; unfold slash in E; rewrite !sapp_assoc in E;
        apply sapp_inj, sapp_inj, sapp_inj in E; discriminate.
  - intros Z. rewrite Z in T.
    specialize (T (mkVar (slash (slash (slash scope vs) "mu") "var") [c; 1] Zeros)).
    assert (I : In (slash (slash (slash scope vs) "mu") "var") (names (st ++ new))).
    { match type of T with ?P -> _ => assert (X : P) end.
      { apply in_or_app. right. left. reflexivity. }
      apply T in X. apply in_map_iff in X as (u & E & X). injection E as E _. rewrite <- E.
      apply in_map; auto. }
    unfold slash in I |- *. rewrite !sapp_assoc in I |- *. exact I.
Qed.
