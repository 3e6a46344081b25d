(** Proofs about approximation selection and linking (C24), losses (C25), factor
    sharing (C26) and the default collection (C27). *)
From Coq Require Import String List Arith ZArith Bool Reals Lia Lra.
From Verif.Base Require Import Py.
From Verif.Registry Require Import Model Spec BlockProofs HistoryProofs.
Import ListNotations.
Open Scope list_scope.

(* ------------------------------------------------------------------------ *)
(** * C24: linking *)

Lemma subset_spec a b : subset a b = true <-> forall v, In v a -> In v b.
Proof.
  unfold subset. rewrite forallb_forall. split; intros H v I.
  - apply mem_spec, H, I.
  - apply mem_spec, H, I.
Qed.
Lemma set_eqb_spec a b : set_eqb a b = true <-> same_set a b.
Proof.
  unfold set_eqb, same_set. rewrite andb_true_iff, !subset_spec. split.
  - intros [H1 H2] v. split; auto.
  - intros H. split; intros v; apply H.
Qed.

Lemma layer_linked shape scope l c : c_linked (fst (run_layer shape scope l c)) = c_linked c.
Proof.
  apply (layer_preserves (fun c' => c_linked c' = c_linked c) shape scope l);
    [| | | reflexivity].
  - intros p b r c0 <-.
    destruct (register_block_atomic scope p b r c0) as [(e & E)|(k & c' & E & _ & _ & R)];
      rewrite E; cbn; [reflexivity|]. inversion R; subst; reflexivity.
  - intros p t c0 <-. reflexivity.
  - intros p t c0 <-. reflexivity.
Qed.
Lemma other_linked shape k c :
  (forall p a, k <> Link p a) -> c_linked (fst (run_call shape k c)) = c_linked c.
Proof.
  intros N. destruct k; cbn [run_call].
  - apply layer_linked.
  - unfold register_loss. destruct (c_final c); [reflexivity|].
    destruct (resolve scope r); destruct (find_loss _ _) as [[|t ts]|]; try reflexivity;
      destruct (coeff_of _ _); try reflexivity; destruct (Req_EM_T _ _); reflexivity.
  - exfalso. eapply N. reflexivity.
  - unfold set_default. destruct lookup; reflexivity.
  - unfold finalize. destruct c_final; [reflexivity|]. destruct losses; reflexivity.
  - unfold check_registration. destruct (_ && _); [reflexivity|]. destruct check_loop; reflexivity.
Qed.

Definition link_ok (c : coll) (p : params) : Prop :=
  (forall q b v, In (q, b) (c_blocks c) -> In v (vars_of p) -> In v (vars_of q) ->
     same_set (vars_of p) (vars_of q)) /\
  (forall s a v, In (s, a) (c_linked c) -> In v (vars_of p) -> ~ In v s).

Lemma link_spec p a c :
  (link_ok c p /\
   define_linked_parameters p a c = (set_linked ((vars_of p, a) :: c_linked c) c, Ok tt)) \/
  (~ link_ok c p /\ define_linked_parameters p a c = (c, Raise ValueError)).
Proof.
  unfold define_linked_parameters.
  destruct (existsb _ (c_blocks c)) eqn:E1.
  - right. split; [|reflexivity]. intros [H _].
    apply existsb_exists in E1 as ([q b] & I & E). cbn [fst] in E.
    apply andb_true_iff in E as [E1 E2]. apply existsb_exists in E1 as (v & V & M).
    apply mem_spec in M. apply negb_true_iff, not_true_iff_false in E2. apply E2.
    apply set_eqb_spec. eapply H; eauto.
  - destruct (existsb _ (vars_of p)) eqn:E2.
    + right. split; [|reflexivity]. intros [_ H].
      apply existsb_exists in E2 as (v & V & E). apply existsb_exists in E as ([s x] & I & M).
      apply mem_spec in M. eapply H; eauto.
    + left. split; [|reflexivity]. split.
      * intros q b v I V W. apply set_eqb_spec. destruct (set_eqb (vars_of p) (vars_of q)) eqn:S; [reflexivity|].
        exfalso. apply not_true_iff_false in E1. apply E1. apply existsb_exists.
        exists (q, b). split; [assumption|]. cbn [fst]. rewrite S, andb_true_r. apply existsb_exists.
        exists v. split; [assumption|]. apply mem_spec; assumption.
      * intros s x v I V W. apply not_true_iff_false in E2. apply E2. apply existsb_exists.
        exists v. split; [assumption|]. apply existsb_exists. exists (s, x). split; [assumption|].
        apply mem_spec; assumption.
Qed.

Definition LD (c : coll) : Prop :=
  forall i j s a s' a' v, nth_error (c_linked c) i = Some (s, a) ->
    nth_error (c_linked c) j = Some (s', a') -> In v s -> In v s' -> i = j.
Lemma LD_call shape k c : LD c -> LD (fst (run_call shape k c)).
Proof.
  intros H. destruct k; try (unfold LD; rewrite other_linked by congruence; exact H).
  cbn [run_call]. destruct (link_spec p approx c) as [[[_ K] ->]|[_ ->]]; [|exact H].
  unfold LD. cbn [fst c_linked set_linked].
  intros i j s a s' a' v Hi Hj V W. destruct i as [|i], j as [|j]; cbn in Hi, Hj.
  - reflexivity.
  - injection Hi as <- <-. exfalso. apply nth_error_In in Hj. eapply K; eauto.
  - injection Hj as <- <-. exfalso. apply nth_error_In in Hi. eapply K; eauto.
  - f_equal. eapply H; eauto.
Qed.
Lemma LD_after shape h : LD (after shape h initial).
Proof.
  apply after_inv; [|intros; apply LD_call; assumption].
  intros i j s a s' a' v Hi. destruct i; discriminate.
Qed.

Lemma linked_lookup_Some l s x :
  linked_lookup l s = Some x -> exists s', In (s', x) l /\ same_set s' s.
Proof.
  induction l as [|[s' a] l IH]; cbn; [discriminate|].
  destruct (set_eqb s' s) eqn:E.
  - intros [= ->]. apply set_eqb_spec in E. eauto.
  - intros H. destruct (IH H) as (s2 & I & S). eauto.
Qed.
Lemma linked_lookup_None l s :
  linked_lookup l s = None -> forall s' a, In (s', a) l -> ~ same_set s' s.
Proof.
  induction l as [|[s' a] l IH]; cbn; intros H s2 a2 I; [destruct I|].
  destruct (set_eqb s' s) eqn:E; [discriminate|].
  destruct I as [[= -> ->]|I]; [|eapply IH; eauto].
  intros S. apply set_eqb_spec in S. congruence.
Qed.

Lemma effective_selects c k p approx :
  LD c -> vars_of p <> [] ->
  selects c p (default_of k (c_def c)) approx (effective c k p approx).
Proof.
  intros D Ne. unfold effective, get_linked_approx. destruct approx as [a|]; [constructor|].
  destruct (linked_lookup (c_linked c) (vars_of p)) as [[a|]|] eqn:L.
  - apply linked_lookup_Some in L as (s & I & S). econstructor 2; eauto.
  - constructor 3. intros s a I S. apply linked_lookup_Some in L as (s' & I' & S').
    destruct (vars_of p) as [|v vs] eqn:V; [congruence|].
    assert (v1 : In v s) by (apply S; cbn; auto). assert (v2 : In v s') by (apply S'; cbn; auto).
    apply In_nth_error in I as (i & I). apply In_nth_error in I' as (j & J).
    assert (i = j) by (eapply D; eauto). subst. congruence.
  - constructor 3. intros s a I. eapply linked_lookup_None; eauto.
Qed.
Lemma selects_unique c p d approx a b :
  LD c -> vars_of p <> [] -> selects c p d approx a -> selects c p d approx b -> a = b.
Proof.
  intros D Ne H1 H2. inversion H1 as [|s x I S|N1]; inversion H2 as [|s' x' I' S'|N2]; subst; try congruence.
  - destruct (vars_of p) as [|v vs] eqn:V; [congruence|].
    assert (v1 : In v s) by (apply S; cbn; auto). assert (v2 : In v s') by (apply S'; cbn; auto).
    apply In_nth_error in I as (i & I). apply In_nth_error in I' as (j & J).
    assert (i = j) by (eapply D; eauto). subst. congruence.
  - exfalso. eapply N2; eauto.
  - exfalso. eapply N1; eauto.
Qed.

(** Calls whose effective approximation is unknown are refused. *)
Lemma unknown_approx_refused shape scope l c k p approx :
  kind_of l = Some (k, p, approx) ->
  lookup (table_of k) (effective c k p approx) = None ->
  exists e, run_layer shape scope l c = (c, Raise e).
Proof.
  intros K N.
  assert (G : forall B d (f : cls * string -> M B),
    (forall c, d c = default_of k (c_def c)) ->
    refuses (mbind (get_block_type p approx d (table_of k)) f) c).
  { intros B d f Hd. exists ValueError. rewrite mbind_eq, (get_block_type_eq k p approx d c Hd), N.
    reflexivity. }
  destruct l; cbn in K; try discriminate; injection K as <- <- <-; cbn [run_layer].
  - apply (G _ (fun c => d_fc (c_def c))). reflexivity.
  - apply refuses_bind_still; [stl|]. intros _ _. apply (G _ (fun c => d_conv2d (c_def c))). reflexivity.
  - apply (G _ (fun c => d_generic (c_def c))). reflexivity.
  - apply (G _ (fun c => d_fc_multi (c_def c))). reflexivity.
  - apply refuses_bind_still; [stl|]. intros _ _. apply (G _ (fun c => d_conv2d_multi (c_def c))). reflexivity.
  - apply refuses_bind_still.
    { destruct p0 as [|[|? [|]]]; try stl. apply still_bind; [stl | intros; stl]. }
    intros sc _. apply refuses_bind_still; [stl|]. intros _ _.
    apply (G _ (fun c => d_scale_shift (c_def c))). reflexivity.
Qed.

Lemma lookup_In t a k : NoDup (map fst t) -> (lookup t a = Some k <-> In (a, k) t).
Proof.
  induction t as [|[x y] t IH]; cbn; intros N; [split; [discriminate|tauto]|].
  inversion N as [|? ? N1 N2]; subst. destruct (String.eqb x a) eqn:E.
  - apply String.eqb_eq in E. subst. split.
    + intros [= ->]. auto.
    + intros [[= ->]|I]; [reflexivity|]. exfalso. apply N1. apply in_map_iff. exists (a, k). auto.
  - rewrite IH by assumption. split; [auto|]. intros [[= -> ->]|I]; [|assumption].
    rewrite String.eqb_refl in E. discriminate.
Qed.
Lemma tables_nodup k : NoDup (map fst (table_of k)).
Proof.
  destruct k; cbn; repeat (constructor; [cbn; intuition congruence|]); constructor.
Qed.

Lemma selection shape h scope l k p approx a :
  let c := after shape h initial in
  kind_of l = Some (k, p, approx) -> vars_of p <> [] ->
  selects c p (default_of k (c_def c)) approx a ->
  ((forall x, ~ In (a, x) (table_of k)) -> exists e, run_layer shape scope l c = (c, Raise e)) /\
  (forall b c', In (p, b) (c_blocks c') ->
     run_layer shape scope l c = (c', Ok tt) -> clean shape l ->
     (forall b0, ~ In (p, b0) (c_blocks c)) ->
     b_approx b = a /\ In (a, b_cls b) (table_of k)).
Proof.
  intros c K Ne S.
  assert (E : a = effective c k p approx).
  { eapply selects_unique; eauto; [apply LD_after|]. apply effective_selects; [apply LD_after|assumption]. }
  split.
  - intros N. eapply unknown_approx_refused; eauto. rewrite <- E.
    destruct (lookup _ a) eqn:L; [|reflexivity]. apply lookup_In in L; [|apply tables_nodup].
    exfalso. eapply N; eauto.
  - intros b c' I R Cl N.
    destruct (layer_atomic shape scope l c Cl) as [(e & E')|(u & c'' & E' & _ & t & kk & ap & P & Rq & Cm)];
      rewrite R in E'; [congruence|]. injection E' as <- _.
    unfold requested in Rq. rewrite K, <- E in Rq.
    destruct (lookup (table_of k) a) as [x|] eqn:L; [|discriminate]. injection Rq as <- <-.
    assert (Pp : pt_params t = p).
    { destruct l; cbn in K; try discriminate; injection K as <- <- <-; cbn in P; injection P as <-; reflexivity. }
    inversion Cm as [F _ _|b0 F _ _]; subst c'.
    + cbn [c_blocks set_uses set_blocks] in I. apply in_app_iff in I as [I|I].
      * exfalso. eapply N; eauto.
      * destruct I as [I|[]]. rewrite Pp in I. injection I as <-. cbn. split; [reflexivity|].
        apply lookup_In; [apply tables_nodup|assumption].
    + exfalso. apply find_block_In in F. rewrite Pp in F. eapply N; eauto.
Qed.

Lemma set_default_spec k a c :
  ((exists x, In (a, x) (table_of k)) ->
     exists c', set_default k a c = (c', Ok tt) /\
       forall k', default_of k' (c_def c') =
         (if match k, k' with
             | KGeneric, KGeneric | KFc, KFc | KConv2d, KConv2d | KFcMulti, KFcMulti
             | KConv2dMulti, KConv2dMulti | KScaleShift, KScaleShift => true
             | _, _ => false end then a else default_of k' (c_def c))) /\
  ((forall x, ~ In (a, x) (table_of k)) -> set_default k a c = (c, Raise ValueError)).
Proof.
  unfold set_default. split.
  - intros (x & I). apply lookup_In in I; [|apply tables_nodup]. rewrite I.
    eexists. split; [reflexivity|]. intros k'. destruct k, k'; reflexivity.
  - intros N. destruct (lookup _ a) eqn:L; [|reflexivity]. apply lookup_In in L; [|apply tables_nodup].
    exfalso. eapply N; eauto.
Qed.

Lemma asks_requested shape h l k a :
  let c := after shape h initial in asks c l k a -> requested c l = Some (k, a).
Proof.
  intros c H. inversion H as [l' kd p ap k' a' K Ne S I| | |]; subst; try reflexivity.
  assert (E : a = effective c kd p ap).
  { eapply selects_unique; eauto; [apply LD_after|]. apply effective_selects; [apply LD_after|assumption]. }
  unfold requested. rewrite K, <- E. apply lookup_In in I; [|apply tables_nodup]. rewrite I. reflexivity.
Qed.

(* ------------------------------------------------------------------------ *)
(** * C20: reuse *)

Lemma wrong_type shape h scope l t b k a :
  let c := after shape h initial in
  parts l = [t] -> In (pt_params t, b) (c_blocks c) -> asks c l k a -> b_cls b <> k ->
  exists e, run_layer shape scope l c = (c, Raise e).
Proof. intros c P I A N. eapply wrong_type_refused; eauto. apply asks_requested. exact A. Qed.

Lemma append_tower_split bs p b t :
  find_block bs p = Some b ->
  exists pre post, bs = pre ++ (p, b) :: post /\
    append_tower bs p t = pre ++ (p, mkBlock (b_cls b) (b_approx b) (b_towers b ++ [t])) :: post.
Proof.
  induction bs as [|[k b'] bs IH]; cbn; [discriminate|].
  destruct (params_eqb k p) eqn:E.
  - intros [= ->]. apply params_eqb_spec in E. subst. exists [], bs. auto.
  - intros F. destruct (IH F) as (pre & post & -> & ->). exists ((k, b') :: pre), post. auto.
Qed.

Lemma layer_success shape scope l c c' t :
  clean shape l -> parts l = [t] -> run_layer shape scope l c = (c', Ok tt) ->
  let r := resolve scope (reuse_of l) in
  ((forall b, ~ In (pt_params t, b) (c_blocks c)) /\ r <> RTrue /\
   exists k a, c_blocks c' = c_blocks c ++ [(pt_params t, mkBlock k a [pt_tower t])]) \/
  ((r = RTrue \/ r = RAuto) /\
   exists b pre post, c_blocks c = pre ++ (pt_params t, b) :: post /\
     c_blocks c' = pre ++ (pt_params t,
       mkBlock (b_cls b) (b_approx b) (b_towers b ++ [pt_tower t])) :: post).
Proof.
  intros Cl P R r.
  destruct (layer_atomic shape scope l c Cl) as [(e & E')|(u & c'' & E' & _ & t' & kk & ap & P' & Rq & Cm)];
    rewrite R in E'; [congruence|]. injection E' as <- _.
  rewrite P in P'. injection P' as <-.
  inversion Cm as [F Nr O|b0 F K Nr]; subst c'.
  - left. split; [apply find_block_None; assumption|]. split; [assumption|]. exists kk, ap. reflexivity.
  - right. split; [assumption|]. destruct (append_tower_split _ _ _ (pt_tower t) F) as (pre & post & E1 & E2).
    exists b0, pre, post. auto.
Qed.

Lemma mbind_agree {A B} (m m' : M A) (k : A -> M B) c : m c = m' c -> mbind m k c = mbind m' k c.
Proof. intros E. rewrite !mbind_eq, E. reflexivity. Qed.
Lemma mbind_agree_still {A B} (m : M A) (k k' : A -> M B) c :
  still m -> (forall a, m c = (c, Ok a) -> k a c = k' a c) -> mbind m k c = mbind m k' c.
Proof.
  intros S H. rewrite !mbind_eq. specialize (S c). destruct (m c) as [c1 [a|e]]; cbn in S; subst; auto.
Qed.
Lemma auto_reuse shape scope l c t :
  parts l = [t] ->
  run_layer shape scope (with_reuse RAuto l) c
  = run_layer shape scope
      (with_reuse (match find_block (c_blocks c) (pt_params t) with Some _ => RTrue | None => RFalse end) l) c.
Proof.
  intros P.
  set (r' := match find_block (c_blocks c) (pt_params t) with Some _ => RTrue | None => RFalse end).
  assert (A : forall b, register_block scope (pt_params t) b RAuto c
                        = register_block scope (pt_params t) b r' c).
  { intros b. unfold register_block, r'. destruct (c_final c); [reflexivity|].
    cbn [resolve]. destruct (find_block (c_blocks c) (pt_params t)) eqn:F; reflexivity. }
  clearbody r'.
  destruct l; cbn [with_reuse run_layer]; cbn in P; try discriminate; injection P as <-; cbn [pt_params] in A.
  - apply mbind_agree_still; [stl|]. intros [k a] _. apply mbind_agree, A.
  - apply mbind_agree_still; [stl|]. intros _ _. apply mbind_agree_still; [stl|]. intros _ _.
    apply mbind_agree, A.
  - apply mbind_agree_still; [stl|]. intros _ _. apply mbind_agree_still; [stl|]. intros [k a] _.
    apply mbind_agree.
    split_if; [apply mbind_agree_still; [stl|]; intros _ _; apply A|].
    split_if.
    { apply mbind_agree_still; [stl|]. intros ok _. apply mbind_agree_still; [stl|]. intros _ _.
      apply mbind_agree_still; [stl|]. intros _ _. apply A. }
    split_if; [apply mbind_agree_still; [stl|]; intros _ _; apply A|]. reflexivity.
  - apply mbind_agree_still; [stl|]. intros _ _. apply mbind_agree_still; [stl|]. intros _ _.
    apply mbind_agree, A.
  - do 3 (apply mbind_agree_still; [stl|]; intros _ _). apply mbind_agree, A.
  - apply mbind_agree_still; [stl|]. intros [k a] _. split_if; [reflexivity|]. apply mbind_agree, A.
  - apply mbind_agree_still; [stl|]. intros [k a] _. apply mbind_agree, A.
  - apply mbind_agree_still; [stl|]. intros _ _. apply mbind_agree_still; [stl|]. intros [k a] _.
    apply mbind_agree_still; [stl|]. intros _ _. apply mbind_agree, A.
  - apply mbind_agree_still.
    { destruct p as [|[|? [|]]]; try stl. apply still_bind; [stl | intros; stl]. }
    intros sc _. apply mbind_agree_still; [stl|]. intros _ _.
    apply mbind_agree_still; [stl|]. intros [k a] _. apply mbind_agree, A.
Qed.

(* ------------------------------------------------------------------------ *)
(** * C25: losses *)

Lemma layer_losses shape scope l c :
  c_losses (fst (run_layer shape scope l c)) = c_losses c /\
  c_coeffs (fst (run_layer shape scope l c)) = c_coeffs c /\
  c_next (fst (run_layer shape scope l c)) = c_next c.
Proof.
  apply (layer_preserves (fun c' => c_losses c' = c_losses c /\ c_coeffs c' = c_coeffs c /\
                                    c_next c' = c_next c) shape scope l);
    [| | | repeat split].
  - intros p b r c0 H.
    destruct (register_block_atomic scope p b r c0) as [(e & E)|(k & c' & E & _ & _ & R)];
      rewrite E; cbn; [assumption|]. inversion R; subst; assumption.
  - intros p t c0 H. exact H.
  - intros p t c0 H. exact H.
Qed.
Lemma other_losses shape k c :
  (forall s n f x r, k <> Loss s n f x r) ->
  c_losses (fst (run_call shape k c)) = c_losses c /\
  c_coeffs (fst (run_call shape k c)) = c_coeffs c /\
  c_next (fst (run_call shape k c)) = c_next c.
Proof.
  intros N. destruct k; cbn [run_call].
  - apply layer_losses.
  - exfalso. eapply N. reflexivity.
  - unfold define_linked_parameters. destruct existsb; [repeat split|]. destruct existsb; repeat split.
  - unfold set_default. destruct lookup; repeat split.
  - unfold finalize. destruct c_final; [repeat split|]. destruct losses; repeat split.
  - unfold check_registration. destruct (_ && _); [repeat split|]. destruct check_loop; repeat split.
Qed.

(** The name a loss call uses. *)
Definition loss_name (name : option string) (fresh : string) : string :=
  match name with Some EmptyString | None => fresh | Some n => n end.

(** Well-formed loss tables. *)
Record LI (c : coll) : Prop := {
  li_names : NoDup (map fst (c_losses c));
  li_ids : NoDup (losses c);
  li_bound : forall x, In x (losses c) -> x < c_next c;
  li_nonempty : forall n ts, In (n, ts) (c_losses c) -> ts <> [];
  li_coeff : forall n ts, In (n, ts) (c_losses c) ->
    exists k, forall x, In x ts -> coeff_of (c_coeffs c) x = Some k;
  li_cbound : forall x k, coeff_of (c_coeffs c) x = Some k -> x < c_next c }.

Lemma find_loss_In l n ts : find_loss l n = Some ts -> In (n, ts) l.
Proof.
  induction l as [|[m us] l IH]; cbn; [discriminate|].
  destruct (String.eqb m n) eqn:E; [|auto]. intros [= ->].
  apply String.eqb_eq in E. subst. auto.
Qed.
Lemma find_loss_None l n : find_loss l n = None <-> ~ In n (map fst l).
Proof.
  induction l as [|[m us] l IH]; cbn; [tauto|].
  destruct (String.eqb m n) eqn:E.
  - apply String.eqb_eq in E. subst. split; [discriminate|]. intros H. exfalso. auto.
  - rewrite IH. apply String.eqb_neq in E. tauto.
Qed.
Lemma find_loss_key l n ts : NoDup (map fst l) -> In (n, ts) l -> find_loss l n = Some ts.
Proof.
  induction l as [|[m us] l IH]; cbn; intros N I; [destruct I|].
  inversion N as [|? ? N1 N2]; subst. destruct I as [[= -> ->]|I].
  - rewrite String.eqb_refl. reflexivity.
  - destruct (String.eqb m n) eqn:E; [|auto]. apply String.eqb_eq in E. subst.
    exfalso. apply N1. apply in_map_iff. exists (n, ts). auto.
Qed.
Lemma append_loss_find l n x m :
  find_loss (append_loss l n x) m
  = if String.eqb n m
    then Some (match find_loss l m with Some ts => ts | None => [] end ++ [x])
    else find_loss l m.
Proof.
  induction l as [|[k ts] l IH]; cbn.
  - destruct (String.eqb n m); reflexivity.
  - destruct (String.eqb k n) eqn:E; cbn.
    + apply String.eqb_eq in E. subst k. destruct (String.eqb n m); reflexivity.
    + rewrite IH. destruct (String.eqb k m) eqn:E2; [|reflexivity].
      destruct (String.eqb n m) eqn:E3; [|reflexivity].
      apply String.eqb_eq in E2, E3. subst. rewrite String.eqb_refl in E. discriminate.
Qed.
Lemma append_loss_names l n x :
  forall m, In m (map fst (append_loss l n x)) <-> In m (map fst l) \/ m = n.
Proof.
  induction l as [|[k ts] l IH]; cbn; intros m.
  - intuition.
  - destruct (String.eqb k n) eqn:E; cbn.
    + apply String.eqb_eq in E. subst. intuition.
    + rewrite IH. intuition.
Qed.
Lemma append_loss_NoDup l n x : NoDup (map fst l) -> NoDup (map fst (append_loss l n x)).
Proof.
  induction l as [|[k ts] l IH]; cbn; intros N.
  - constructor; [auto|constructor].
  - inversion N; subst. destruct (String.eqb k n) eqn:E; cbn; [constructor; assumption|].
    constructor; [|auto]. rewrite append_loss_names. intros [H|H]; [contradiction|].
    subst. rewrite String.eqb_refl in E. discriminate.
Qed.
Lemma append_loss_ids l n x y :
  In y (concat (map snd (append_loss l n x))) <-> In y (concat (map snd l)) \/ y = x.
Proof.
  induction l as [|[k ts] l IH]; cbn.
  - intuition.
  - destruct (String.eqb k n); cbn; rewrite !in_app_iff; [|rewrite IH; tauto].
    cbn. intuition.
Qed.
Lemma NoDup_insert {A} (a b : list A) x :
  NoDup (a ++ b) -> ~ In x (a ++ b) -> NoDup ((a ++ [x]) ++ b).
Proof.
  intros N I. rewrite <- app_assoc. cbn. apply NoDup_Add with (a := x) (l := a ++ b).
  - apply Add_app.
  - split; assumption.
Qed.
Lemma NoDup_app_tail {A} (a b : list A) : NoDup (a ++ b) -> NoDup b.
Proof. induction a; cbn; intros N; [assumption|]. inversion N; auto. Qed.
Lemma append_loss_ids_NoDup l n x :
  NoDup (concat (map snd l)) -> ~ In x (concat (map snd l)) ->
  NoDup (concat (map snd (append_loss l n x))).
Proof.
  induction l as [|[k ts] l IH]; cbn; intros N I.
  - constructor; [auto|constructor].
  - destruct (String.eqb k n); cbn.
    + apply NoDup_insert; assumption.
    + rewrite in_app_iff in I.
      assert (N2 : NoDup (concat (map snd l))) by (eapply NoDup_app_tail; eauto).
      assert (IH' := IH N2 (fun H => I (or_intror H))).
      clear IH. revert N I. induction ts as [|t ts IHt]; cbn; intros N I; [assumption|].
      inversion N as [|? ? M1 M2]; subst. constructor.
      * rewrite in_app_iff, append_loss_ids. rewrite in_app_iff in M1. intuition congruence.
      * apply IHt; [assumption|tauto].
Qed.
Lemma append_loss_In l n x m ts :
  NoDup (map fst l) -> In (m, ts) (append_loss l n x) ->
  (m <> n /\ In (m, ts) l) \/
  (m = n /\ ts = match find_loss l n with Some us => us | None => [] end ++ [x]).
Proof.
  intros N I. apply find_loss_key in I; [|apply append_loss_NoDup; assumption].
  rewrite append_loss_find in I. destruct (String.eqb n m) eqn:E.
  - apply String.eqb_eq in E. subst. injection I as <-. auto.
  - apply String.eqb_neq in E. left. split; [congruence|]. apply find_loss_In. assumption.
Qed.

(** The outcome of a loss registration. *)
Definition loss_allowed (scope : reuse) (name : option string) (fresh : string) (k : R)
    (r : reuse) (c : coll) : Prop :=
  c_final c = false /\
  (if match resolve scope r with RFalse => false | _ => true end
   then exists ts, In (loss_name name fresh, ts) (c_losses c) /\
          forall x, In x ts -> coeff_of (c_coeffs c) x = Some k
   else forall ts, ~ In (loss_name name fresh, ts) (c_losses c)).
Definition loss_added (name : option string) (fresh : string) (k : R) (c : coll) : coll :=
  set_losses (append_loss (c_losses c) (loss_name name fresh) (c_next c))
             ((c_next c, k) :: c_coeffs c) (S (c_next c)) c.

Lemma loss_spec scope name fresh k r c :
  LI c ->
  (loss_allowed scope name fresh k r c /\
   register_loss scope name fresh k r c = (loss_added name fresh k c, Ok tt)) \/
  (~ loss_allowed scope name fresh k r c /\
   exists e, register_loss scope name fresh k r c = (c, Raise e)).
Proof.
  intros L. unfold loss_allowed, register_loss, loss_added. fold (loss_name name fresh).
  destruct (c_final c) eqn:F; [right; split; [intros []; congruence|eauto]|].
  destruct (match resolve scope r with RFalse => false | _ => true end) eqn:T.
  - destruct (find_loss (c_losses c) (loss_name name fresh)) as [ts|] eqn:Fl.
    + apply find_loss_In in Fl. destruct (li_coeff c L _ _ Fl) as (k0 & K0).
      destruct ts as [|t ts]; [exfalso; eapply (li_nonempty c L); eauto|].
      rewrite (K0 t) by (cbn; auto). destruct (Req_EM_T k0 k) as [->|Ne].
      * left. split; [|reflexivity]. split; [reflexivity|]. eauto.
      * right. split; [|eauto]. intros [_ (us & I & H)]. apply Ne.
        assert (Eq : us = t :: ts).
        { apply find_loss_key in I; [|apply (li_names c L)].
          apply find_loss_key in Fl; [|apply (li_names c L)]. congruence. }
        subst us. specialize (H t (or_introl eq_refl)). rewrite (K0 t) in H by (cbn; auto). congruence.
    + right. split; [|eauto]. intros [_ (us & I & H)].
      apply find_loss_None in Fl. apply Fl. apply in_map_iff. exists (loss_name name fresh, us). auto.
  - destruct (find_loss (c_losses c) (loss_name name fresh)) as [ts|] eqn:Fl.
    + right. split; [|eauto]. intros [_ H]. apply find_loss_In in Fl. eapply H; eauto.
    + left. split; [|reflexivity]. split; [reflexivity|]. intros ts I.
      apply find_loss_None in Fl. apply Fl. apply in_map_iff. exists (loss_name name fresh, ts). auto.
Qed.

Lemma LI_added scope name fresh k r c :
  LI c -> loss_allowed scope name fresh k r c -> LI (loss_added name fresh k c).
Proof.
  intros L [_ A]. set (n := loss_name name fresh) in *.
  assert (Fr : ~ In (c_next c) (losses c)).
  { intros I. apply (li_bound c L) in I. lia. }
  assert (Old : forall x k', coeff_of (c_coeffs c) x = Some k' ->
                coeff_of ((c_next c, k) :: c_coeffs c) x = Some k').
  { intros x k' H. cbn. pose proof (li_cbound c L _ _ H).
    destruct (Nat.eqb (c_next c) x) eqn:E; [apply Nat.eqb_eq in E; lia|assumption]. }
  constructor; unfold losses, towers_by_loss; cbn [c_losses loss_added set_losses c_next c_coeffs].
  - apply append_loss_NoDup, (li_names c L).
  - apply append_loss_ids_NoDup; [apply (li_ids c L) | exact Fr].
  - intros x I. apply append_loss_ids in I as [I|I]; [apply (li_bound c L) in I; lia|lia].
  - intros m ts I. apply append_loss_In in I as [[_ I]|[_ ->]]; [|intros H; apply app_eq_nil in H as [_ H]; discriminate|apply (li_names c L)].
    eapply (li_nonempty c L); eauto.
  - intros m ts I. apply append_loss_In in I; [|apply (li_names c L)].
    destruct I as [[_ I]|[-> ->]].
    + destruct (li_coeff c L _ _ I) as (k' & K). exists k'. intros x X. apply Old, K, X.
    + exists k. intros x X. apply in_app_iff in X as [X|[<-|[]]].
      * apply Old. fold n in X. destruct (find_loss (c_losses c) n) as [us|] eqn:Fl; [|destruct X].
        destruct (match resolve scope r with RFalse => false | _ => true end).
        -- destruct A as (ts & I & H). apply find_loss_key in I; [|apply (li_names c L)].
           apply H. congruence.
        -- exfalso. eapply A. apply find_loss_In; eauto.
      * cbn. rewrite Nat.eqb_refl. reflexivity.
  - intros x k' H. cbn in H. destruct (Nat.eqb (c_next c) x) eqn:E.
    + apply Nat.eqb_eq in E. lia.
    + apply (li_cbound c L) in H. lia.
Qed.

Lemma LI_call shape k c : LI c -> LI (fst (run_call shape k c)).
Proof.
  intros L. destruct k;
    try (match goal with |- LI (fst (run_call _ ?q _)) =>
           destruct (other_losses shape q c ltac:(congruence)) as (E1 & E2 & E3)
         end; constructor; unfold losses, towers_by_loss; rewrite ?E1, ?E2, ?E3; apply L).
  cbn [run_call]. destruct (loss_spec scope name fresh coeff r c L) as [[A ->]|[_ (e & ->)]]; [|exact L].
  cbn [fst]. eapply LI_added; eauto.
Qed.
Lemma LI_after shape h : LI (after shape h initial).
Proof.
  apply after_inv; [|intros; apply LI_call; assumption].
  constructor; cbn; try constructor; try tauto; discriminate.
Qed.

(** Towers of a name over a history. *)
Definition towers_of_loss (c : coll) (n : string) : list nat :=
  match find_loss (c_losses c) n with Some ts => ts | None => [] end.
Fixpoint registrations_of (shape : nat -> list nat) (n : string) (h : list call) (c : coll) : nat :=
  match h with
  | [] => 0
  | k :: h' =>
      let '(c', r) := run_call shape k c in
      (match k, r with
       | Loss _ name fresh _ _, Ok _ => if String.eqb (loss_name name fresh) n then 1 else 0
       | _, _ => 0
       end) + registrations_of shape n h' c'
  end.
Lemma loss_towers_history shape n h c :
  LI c -> length (towers_of_loss (after shape h c) n)
          = length (towers_of_loss c n) + registrations_of shape n h c.
Proof.
  revert c. induction h as [|k h IH]; intros c L.
  - cbn. lia.
  - rewrite after_cons. rewrite IH by (apply LI_call; assumption).
    cbn [registrations_of]. destruct (run_call shape k c) as [c' r] eqn:E. cbn [fst].
    assert (S : length (towers_of_loss c' n) = length (towers_of_loss c n) +
                match k, r with
                | Loss _ name fresh _ _, Ok _ => if String.eqb (loss_name name fresh) n then 1 else 0
                | _, _ => 0
                end); [|lia].
    destruct k;
      try (match type of E with run_call _ ?q _ = _ =>
             destruct (other_losses shape q c ltac:(congruence)) as (E1 & _) end;
           rewrite E in E1; cbn in E1; unfold towers_of_loss; rewrite E1; lia).
    cbn [run_call] in E.
    destruct (loss_spec scope name fresh coeff r0 c L) as [[A X]|[_ (e & X)]]; rewrite E in X;
      injection X as -> ->; [|lia].
    unfold towers_of_loss, loss_added. cbn [c_losses set_losses]. rewrite append_loss_find.
    destruct (String.eqb (loss_name name fresh) n); [|lia].
    destruct (find_loss (c_losses c) n); rewrite app_length; cbn; lia.
Qed.

(** Evaluation. *)
Fixpoint osum (l : list (option R)) : option R :=
  match l with
  | [] => Some 0%R
  | x :: l' => match x, osum l' with Some a, Some b => Some (a + b)%R | _, _ => None end
  end.
Lemma add_n_osum l : l <> [] -> add_n l = osum l.
Proof.
  induction l as [|x l IH]; [congruence|]. intros _. destruct l as [|y l].
  - cbn. destruct x; [|reflexivity]. f_equal. ring.
  - cbn [add_n osum] in *. rewrite IH by discriminate. reflexivity.
Qed.
Lemma osum_Some l : osum (map Some l) = Some (rsum l).
Proof. induction l as [|x l IH]; cbn; [reflexivity|]. rewrite IH. reflexivity. Qed.
Lemma eval_losses_spec c value m kf :
  (forall n ts x, In (n, ts) (c_losses c) -> In x ts -> coeff_of (c_coeffs c) x = Some (kf n)) ->
  eval_losses c value m
  = map Some (concat (map (fun nt => map (fun x => (weight m (kf (fst nt)) * value x)%R) (snd nt))
                          (c_losses c))).
Proof.
  unfold eval_losses, losses, towers_by_loss. generalize (c_losses c). intros l.
  induction l as [|[n ts] l IH]; cbn [map concat snd fst]; intros K; [reflexivity|].
  rewrite !map_app. f_equal.
  - rewrite map_map. apply map_ext_in. intros x X. destruct m; cbn.
    + erewrite K by (cbn; eauto). reflexivity.
    + erewrite K by (cbn; eauto). reflexivity.
    + reflexivity.
  - apply IH. intros n' ts' x I X. eapply K; cbn; eauto.
Qed.
Lemma rsum_app a b : rsum (a ++ b) = (rsum a + rsum b)%R.
Proof. induction a as [|x a IH]; cbn; [ring|]. rewrite IH. ring. Qed.
Lemma rsum_scale k l : rsum (map (fun x => (k * x)%R) l) = (k * rsum l)%R.
Proof. induction l as [|x l IH]; cbn; [ring|]. rewrite IH. ring. Qed.

Lemma total_loss_spec shape h value m :
  let c := after shape h initial in
  (losses c = [] -> total_loss c value m = None) /\
  (losses c <> [] ->
   forall kf, (forall n ts x, In (n, ts) (c_losses c) -> In x ts -> coeff_of (c_coeffs c) x = Some (kf n)) ->
   total_loss c value m
   = Some (rsum (map (fun nt => (weight m (kf (fst nt)) * rsum (map value (snd nt)))%R) (c_losses c)))).
Proof.
  intros c. split.
  - intros E. unfold total_loss, eval_losses. rewrite E. reflexivity.
  - intros Ne kf K. unfold total_loss. rewrite add_n_osum.
    + rewrite (eval_losses_spec c value m kf K), osum_Some. f_equal.
      generalize (c_losses c). intros l. induction l as [|[n ts] l IH]; cbn; [reflexivity|].
      rewrite rsum_app, IH. f_equal.
      rewrite <- (map_map value (fun x => (weight m (kf n) * x)%R)), rsum_scale. reflexivity.
    + unfold eval_losses. intros E. apply map_eq_nil in E. contradiction.
Qed.

Lemma coeff_function shape h :
  exists kf : string -> R, let c := after shape h initial in
    forall n ts x, In (n, ts) (c_losses c) -> In x ts -> coeff_of (c_coeffs c) x = Some (kf n).
Proof.
  pose proof (LI_after shape h) as L. set (c := after shape h initial) in *.
  exists (fun n => match find_loss (c_losses c) n with
                   | Some (t :: _) => match coeff_of (c_coeffs c) t with Some k => k | None => 0%R end
                   | _ => 0%R end).
  cbn. intros n ts x I X. rewrite (find_loss_key _ _ _ (li_names c L) I).
  destruct (li_coeff c L _ _ I) as (k & K). destruct ts as [|t ts]; [destruct X|].
  rewrite (K t) by (cbn; auto). apply K. assumption.
Qed.

(* ------------------------------------------------------------------------ *)
(** * C26: factor sharing *)

Record FI (s : fstore) : Prop := {
  fi_keys : NoDup (map fst (fs_table s));
  fi_ids : NoDup (map snd (fs_table s));
  fi_bound : forall f, In f (map snd (fs_table s)) -> f < fs_next s }.
Lemma fs_find_In t k f : fs_find t k = Some f -> In (k, f) t.
Proof.
  induction t as [|[[a b] g] t IH]; cbn; [discriminate|].
  destruct (Nat.eqb a (fst k) && Nat.eqb b (snd k)) eqn:E; [|auto].
  intros [= ->]. apply andb_true_iff in E as [E1 E2]. apply Nat.eqb_eq in E1, E2.
  destruct k; cbn in *; subst. auto.
Qed.
Lemma fs_find_None t k : fs_find t k = None -> ~ In k (map fst t).
Proof.
  induction t as [|[[a b] g] t IH]; cbn; intros H I; [assumption|].
  destruct (Nat.eqb a (fst k) && Nat.eqb b (snd k)) eqn:E; [discriminate|].
  destruct I as [<-|I]; [|exact (IH H I)]. cbn in E. rewrite !Nat.eqb_refl in E. discriminate.
Qed.
Lemma fs_find_key t k f : NoDup (map fst t) -> In (k, f) t -> fs_find t k = Some f.
Proof.
  intros N I. destruct (fs_find t k) as [g|] eqn:E.
  - apply fs_find_In in E. f_equal. clear -N I E.
    induction t as [|[k' f'] t IH]; cbn in *; [destruct I|]. inversion N as [|? ? N1 N2]; subst.
    destruct I as [I|I], E as [E|E].
    + congruence.
    + injection I as -> ->. exfalso. apply N1. apply in_map_iff. exists (k, g). auto.
    + injection E as -> ->. exfalso. apply N1. apply in_map_iff. exists (k, f). auto.
    + auto.
  - exfalso. apply fs_find_None in E. apply E. apply in_map_iff. exists (k, f). auto.
Qed.
Lemma NoDup_snoc {A} (l : list A) x : NoDup l -> ~ In x l -> NoDup (l ++ [x]).
Proof.
  intros N I. rewrite <- (app_nil_r l) in N. rewrite <- app_nil_r.
  apply NoDup_insert; [assumption|]. rewrite app_nil_r. assumption.
Qed.
Lemma FI_step s k : FI s -> FI (fst (make_or_get_factor s k)).
Proof.
  intros F. unfold make_or_get_factor. destruct (snd k) as [args|]; [|assumption].
  destruct (fs_find (fs_table s) (fst k, args)) as [f|] eqn:E; [assumption|].
  constructor; cbn; rewrite ?map_app; cbn.
  - apply NoDup_snoc; [apply F|]. apply fs_find_None. assumption.
  - apply NoDup_snoc; [apply F|]. intros I. apply (fi_bound s F) in I. lia.
  - intros f I. apply in_app_iff in I as [I|[<-|[]]]; [apply (fi_bound s F) in I; lia|lia].
Qed.
Lemma make_get s k s' f :
  FI s -> make_or_get_factor s k = (s', Ok f) ->
  exists a, snd k = Some a /\ In ((fst k, a), f) (fs_table s').
Proof.
  intros F. unfold make_or_get_factor. destruct (snd k) as [args|]; [|discriminate].
  destruct (fs_find (fs_table s) (fst k, args)) as [g|] eqn:E; intros [= <- <-]; exists args;
    (split; [reflexivity|]).
  - apply fs_find_In. assumption.
  - cbn. apply in_app_iff. right. cbn. auto.
Qed.
Lemma fs_grow s k x : In x (fs_table s) -> In x (fs_table (fst (make_or_get_factor s k))).
Proof.
  intros I. unfold make_or_get_factor. destruct (snd k); [|assumption].
  destruct fs_find; [assumption|]. cbn. apply in_app_iff. auto.
Qed.
Lemma requests_spec s ks :
  FI s ->
  let '(s', rs) := requests s ks in
  FI s' /\ (forall x, In x (fs_table s) -> In x (fs_table s')) /\
  length rs = length ks /\
  (forall i k, nth_error ks i = Some k ->
     match snd k with
     | None => nth_error rs i = Some (Raise TypeError)
     | Some a => exists f, nth_error rs i = Some (Ok f) /\ In ((fst k, a), f) (fs_table s')
     end).
Proof.
  revert s. induction ks as [|k ks IH]; intros s F; cbn [requests].
  - split; [assumption|]. split; [auto|]. split; [reflexivity|]. intros i k H. destruct i; discriminate.
  - pose proof (FI_step s k F) as F1. pose proof (fs_grow s k) as G.
    destruct (make_or_get_factor s k) as [s1 r] eqn:E. cbn in F1, G.
    specialize (IH s1 F1). destruct (requests s1 ks) as [s2 rs].
    destruct IH as (F2 & G2 & Ln & N). split; [assumption|]. split; [auto|].
    split; [cbn; congruence|]. intros [|i] k' H; cbn in H.
    + injection H as <-. cbn. destruct (snd k) as [a|] eqn:Sk.
      * destruct r as [f|e].
        -- destruct (make_get s k s1 f F E) as (a' & Sa & I). exists f. split; [reflexivity|].
           apply G2. congruence.
        -- exfalso. unfold make_or_get_factor in E. rewrite Sk in E. destruct fs_find; discriminate.
      * unfold make_or_get_factor in E. rewrite Sk in E. congruence.
    + cbn. apply N. assumption.
Qed.
Lemma FI_init : FI fs_init.
Proof. constructor; cbn; try constructor. tauto. Qed.

Lemma factor_sharing ks s rs :
  requests fs_init ks = (s, rs) ->
  length rs = length ks /\ NoDup (get_factors s) /\
  forall i j k k', nth_error ks i = Some k -> nth_error ks j = Some k' ->
    match snd k, snd k' with
    | Some a, Some a' =>
        exists f f', nth_error rs i = Some (Ok f) /\ nth_error rs j = Some (Ok f') /\
          In f (get_factors s) /\ (f = f' <-> fst k = fst k' /\ a = a')
    | None, _ => nth_error rs i = Some (Raise TypeError)
    | _, None => nth_error rs j = Some (Raise TypeError)
    end.
Proof.
  intros E. pose proof (requests_spec fs_init ks FI_init) as H. rewrite E in H.
  destruct H as (F & _ & Ln & N). split; [assumption|]. split; [apply F|].
  intros i j k k' Hi Hj. pose proof (N i k Hi) as A. pose proof (N j k' Hj) as B.
  destruct (snd k) as [a|]; [|exact A]. destruct (snd k') as [a'|]; [|exact B].
  destruct A as (f & A & If). destruct B as (f' & B & If').
  exists f, f'. split; [assumption|]. split; [assumption|]. split.
  - apply in_map_iff. exists ((fst k, a), f). auto.
  - split.
    + intros <-. assert (X : (fst k, a) = (fst k', a')); [|split; congruence].
      pose proof (fi_ids s F) as Nd. clear -If If' Nd.
      induction (fs_table s) as [|[q g] t IH]; cbn in *; [destruct If|].
      inversion Nd as [|? ? N1 N2]; subst. destruct If as [If|If], If' as [If'|If'].
      * congruence.
      * injection If as -> ->. exfalso. apply N1. apply in_map_iff. eexists. split; [|exact If']. reflexivity.
      * injection If' as -> ->. exfalso. apply N1. apply in_map_iff. eexists. split; [|exact If]. reflexivity.
      * auto.
    + intros [E1 E2]. apply fs_find_key in If; [|apply F]. apply fs_find_key in If'; [|apply F].
      rewrite E1, E2 in If. congruence.
Qed.

(* ------------------------------------------------------------------------ *)
(** * C27: the default collection *)

Lemma as_default_normal l body g g' out :
  exec (AsDefault l body) g = (g', out, Ok tt) -> g = None /\ g' = None.
Proof.
  cbn. destruct g as [x|]; cbn; [discriminate|].
  destruct (exec body (Some l)) as [[g2 o] [u|e]]; [|discriminate].
  destruct g2; cbn; intros [= <- _]; auto.
Qed.
Lemma as_default_live l body x :
  exec (AsDefault l body) (Some x) = (Some x, [], Raise ValueError).
Proof. reflexivity. Qed.
Lemma set_default_live x y : set_default_coll (Some y) (Some x) = (Some x, Raise ValueError).
Proof. reflexivity. Qed.
(** Inside the body, before anything else touches it, the default is [l]. *)
Lemma as_default_installs l body g' out r :
  exec (AsDefault l (Seq GetDefault body)) None = (g', out, r) -> exists out', out = l :: out'.
Proof.
  cbn. destruct (exec body (Some l)) as [[g2 o] [u|e]]; cbn.
  - destruct g2; intros [= _ <- _]; eauto.
  - intros [= _ <- _]. eauto.
Qed.
