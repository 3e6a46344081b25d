(** The lists of variables of a factor. *)
From Coq Require Import String QArith Arith Bool List Lia.
From Verif.Base Require Import Py.
From Verif.Names Require Import Model Spec StringProofs ScopeProofs VarProofs InvProofs.
From Verif.Est Require Import VarsModel VarsSpec.
Import ListNotations.
Open Scope list_scope.

Lemma names_of_dense w here r : concat (map behind (dense_items w here r)) = dense_names w here r.
Proof.
  assert (S : forall A (f : A -> string) l, concat (map behind (map (fun a => IVar (f a)) l)) = map f l).
  { intros A f l. induction l as [|a l IH]; cbn; [reflexivity|]. f_equal. exact IH. }
  unfold dense_items, dense_names, power_items. rewrite !map_app, !concat_app, !S. reflexivity.
Qed.

Lemma names_of_options w here r : concat (map behind (option_items w here r)) = option_names w here r.
Proof. unfold option_items, option_names. rewrite map_app, concat_app, !map_map. reflexivity. Qed.

Lemma listed w scope zm f r vs : spatially_uncorrelated f = false -> var_scope w f = Ok vs ->
  exists items, get_inv_vars w scope (f, r) = Ok items /\
    concat (map behind items) = inverse_names zm w scope (slash scope vs) f r.
Proof.
  intros U V. unfold inverse_names, get_inv_vars.
  destruct f; try discriminate; cbn [diagonal_factor]; try (eexists; split; [reflexivity|reflexivity]);
    try (rewrite V; cbn [bind]; eexists; split; [reflexivity|apply names_of_dense]).
  - destruct full; [rewrite V; cbn [bind]; eexists; split; [reflexivity|apply names_of_dense]|].
    eexists; split; [reflexivity|reflexivity].
  - rewrite V. cbn [bind]. eexists. split; [reflexivity|].
    now rewrite map_app, concat_app, names_of_dense, names_of_options.
Qed.

Lemma listed_diagonal w scope f r : diagonal_factor f = true -> get_inv_vars w scope (f, r) = Ok [].
Proof. intro H. destruct f; try discriminate; try reflexivity. destruct full; [discriminate|reflexivity]. Qed.

Lemma uncorrelated_not_listed w scope zm f r vs : spatially_uncorrelated f = true -> var_scope w f = Ok vs ->
  exists items, get_inv_vars w scope (f, r) = Ok items /\ length items = length (r_matpower r) /\
    (forall i, In i items -> exists p, In p (r_matpower r) /\ i = IVar (slash (slash scope vs) (matpower_name w (fst p) (snd p)))) /\
    length (inverse_names zm w scope (slash scope vs) f r) = (if zm then 2 else 4) * length (r_matpower r).
Proof.
  intros U V. destruct f; try discriminate. unfold get_inv_vars, inverse_names. rewrite V. cbn [bind diagonal_factor].
  eexists. split; [reflexivity|]. split; [apply map_length|]. split.
  - intros i H. apply in_map_iff in H. destruct H as (p & <- & Hp). eauto.
  - unfold sua_names. induction (r_matpower r) as [|p l IH]; [destruct zm; reflexivity|].
    cbn [map concat]. rewrite app_length, IH. destruct zm; cbn; lia.
Qed.

Lemma assigned_all items ns : mapm assigned items = Ok ns -> ns = concat (map behind items).
Proof.
  revert ns. induction items as [|i items IH]; intros ns H; cbn in H.
  - now inversion H.
  - apply bind_ok in H as (n & N & H). apply bind_ok in H as (ns' & H & E). apply Ok_inj in E. subst ns.
    cbn. rewrite <- (IH _ H). destruct i; inversion N; subst. reflexivity.
Qed.

Lemma assigned_vars items : (forall i, In i items -> exists n, i = IVar n) ->
  mapm assigned items = Ok (concat (map behind items)).
Proof.
  induction items as [|i items IH]; intro H; [reflexivity|]. cbn [mapm].
  destruct (H i (or_introl eq_refl)) as [n ->]. cbn [assigned bind].
  rewrite IH by (intros j Hj; apply H; now right). reflexivity.
Qed.

Lemma assigned_tuple items ns : In (ITuple ns) items -> (forall i, In i items -> (exists n, i = IVar n) \/ exists l, i = ITuple l) ->
  mapm assigned items = Raise AttributeError.
Proof.
  induction items as [|i items IH]; intros H A; [destruct H|]. cbn [mapm].
  destruct (A i (or_introl eq_refl)) as [[n ->]|[l ->]]; [|reflexivity]. cbn [assigned bind].
  destruct H as [H|H]; [discriminate|]. rewrite IH; [reflexivity|exact H|]. intros j Hj. apply A. now right.
Qed.

Lemma concat_nonempty {A} (l : list (list A)) :
  concat (filter (fun x => match x with [] => false | _ => true end) l) = concat l.
Proof. induction l as [|[|a x] l IH]; cbn; [reflexivity|exact IH|]. f_equal. f_equal. exact IH. Qed.

Lemma items_kinds w scope f r items : get_inv_vars w scope (f, r) = Ok items ->
  (forall i, In i items -> (exists n, i = IVar n) \/ exists l, i = ITuple l) /\
  (series_factor f = false \/ (r_opt1 r = [] /\ r_opt2 r = []) -> forall i, In i items -> exists n, i = IVar n) /\
  (series_factor f = true -> r_opt1 r <> [] \/ r_opt2 r <> [] -> exists ns, In (ITuple ns) items).
Proof.
  assert (P : forall w here r i, In i (power_items w here r) -> exists n, i = IVar n).
  { intros w' here r' i H. unfold power_items in H. apply in_map_iff in H. destruct H as (p & <- & _). eauto. }
  assert (D : forall w here r i, In i (dense_items w here r) -> exists n, i = IVar n).
  { intros w' here r' i H. unfold dense_items in H. rewrite !in_app_iff in H. destruct H as [H|[H|H]]; [eapply P; exact H| |];
      apply in_map_iff in H; destruct H as (p & <- & _); eauto. }
  assert (O : forall w here r i, In i (option_items w here r) -> exists l, i = ITuple l).
  { intros w' here r' i H. unfold option_items in H. rewrite in_app_iff in H.
    destruct H as [H|H]; apply in_map_iff in H; destruct H as (p & <- & _); eauto. }
  intro H.
  assert (N : series_factor f = false -> forall i, In i items -> exists n, i = IVar n).
  { intros Sf i Hi. destruct f; try discriminate Sf; cbn [get_inv_vars] in H;
      try (inversion H; subst; destruct Hi);
      try (apply bind_ok in H as (vs & _ & H); apply Ok_inj in H; subst; eauto; fail).
    - destruct full; [|inversion H; subst; destruct Hi].
      apply bind_ok in H as (vs & _ & H). apply Ok_inj in H. subst. eauto. }
  assert (M : series_factor f = true -> exists here, items = dense_items w here r ++ option_items w here r).
  { intro Sf. destruct f; try discriminate. cbn [get_inv_vars] in H. apply bind_ok in H as (vs & _ & H).
    apply Ok_inj in H. subst. eauto. }
  split; [|split].
  - intros i Hi. destruct (series_factor f); [|left; now apply N]. destruct (M eq_refl) as [here ->].
    apply in_app_or in Hi. destruct Hi as [Hi|Hi]; [left; eapply D; exact Hi|right; eapply O; exact Hi].
  - intros [Sf|[E1 E2]] i Hi; [now apply N|]. destruct (series_factor f); [|now apply N].
    destruct (M eq_refl) as [here ->]. apply in_app_or in Hi. destruct Hi as [Hi|Hi]; [eapply D; exact Hi|].
    unfold option_items in Hi. rewrite E1, E2 in Hi. destruct Hi.
  - intros Sf E. destruct (M Sf) as [here ->]. destruct E as [E|E].
    + destruct (r_opt1 r) as [|id l] eqn:R; [contradiction|]. eexists. apply in_or_app. right.
      unfold option_items. apply in_or_app. left. rewrite R. left. reflexivity.
    + destruct (r_opt2 r) as [|id l] eqn:R; [contradiction|]. eexists. apply in_or_app. right.
      unfold option_items. apply in_or_app. right. rewrite R. left. reflexivity.
Qed.

Lemma all_listed k w scope frs st st' : make_vars k w scope frs st = Ok st' ->
  exists mid news, make_cov_vars k w scope (map fst frs) st = Ok mid /\ st' = mid ++ concat news /\
    Forall2 (fun fr new => exists items, get_inv_vars w scope fr = Ok items /\
       (spatially_uncorrelated (fst fr) = false -> concat (map behind items) = names new) /\
       (spatially_uncorrelated (fst fr) = true ->
          length items = length (r_matpower (snd fr)) /\ incl (concat (map behind items)) (names new) /\
          length new = (if k_zero_mean k then 2 else 4) * length items)) frs news.
Proof.
  intro H. destruct (inverses_own _ _ _ _ _ _ H) as (mid & news & A & B & _ & _ & C).
  exists mid, news. split; [exact A|]. split; [exact B|]. clear -C.
  induction C as [|[f r] new frs news E C IH]; constructor; [|exact IH]. cbn [fst snd] in *.
  destruct E as [[Df ->]|(vs & V & N)].
  - exists []. split; [now apply listed_diagonal|]. split; [reflexivity|]. intro U. destruct f; discriminate.
  - destruct (spatially_uncorrelated f) eqn:U.
    + destruct (uncorrelated_not_listed w scope (k_zero_mean k) f r vs U V) as (items & G & L & I & NL).
      exists items. split; [exact G|]. split; [discriminate|]. intros _. split; [exact L|]. split.
      * intros n Hn. apply in_concat in Hn. destruct Hn as (ns & Hns & Hn). apply in_map_iff in Hns.
        destruct Hns as (i & <- & Hi). destruct (I i Hi) as (p & Hp & ->). destruct Hn as [<-|[]].
        rewrite N. destruct f; try discriminate. unfold inverse_names. cbn [diagonal_factor]. unfold sua_names.
        apply in_concat. eexists. split; [apply in_map_iff; exists p; split; [reflexivity|exact Hp]|]. now left.
      * rewrite <- (map_length v_name new : length (names new) = length new), N, NL, L. reflexivity.
    + destruct (listed w scope (k_zero_mean k) f r vs U V) as (items & G & L). exists items. split; [exact G|].
      split; [intros _; now rewrite L, N|discriminate].
Qed.

Lemma all_assigned_or_none w scope frs news :
  Forall2 (fun fr (new : list var) => exists items, get_inv_vars w scope fr = Ok items /\
       concat (map behind items) = names new /\ (forall i, In i items -> exists n, i = IVar n)) frs news ->
  replica_assigned w scope frs =
    match concat news with [] => Raise ValueError | _ => Ok (names (concat news)) end.
Proof.
  intros F. unfold replica_assigned.
  assert (K : exists itemss, mapm (get_inv_vars w scope) frs = Ok itemss /\
     concat (map behind (concat itemss)) = names (concat news) /\
     (forall i, In i (concat itemss) -> exists n, i = IVar n)).
  { induction F as [|fr new frs news (items & G & B & V) F (itemss & Gs & Bs & Vs)].
    - exists []. cbn. split; [reflexivity|]. split; [reflexivity|]. intros i [].
    - exists (items :: itemss). cbn [mapm]. rewrite G. cbn [bind]. rewrite Gs. cbn [bind].
      split; [reflexivity|]. split.
      + cbn [concat]. rewrite map_app, concat_app, B, Bs. unfold names. now rewrite map_app.
      + intros i Hi. cbn [concat] in Hi. apply in_app_or in Hi. destruct Hi; auto. }
  destruct K as (itemss & E & B & V). rewrite E. cbn [bind].
  destruct (filter _ itemss) as [|x l] eqn:Fi.
  - rewrite <- (concat_nonempty itemss), Fi in B. cbn in B.
    destruct (concat news); [reflexivity|discriminate].
  - rewrite <- Fi, concat_nonempty, (assigned_vars _ V), B.
    destruct (concat news); [|reflexivity]. exfalso. cbn in B.
    assert (X : In x (filter (fun l0 : list item => match l0 with [] => false | _ :: _ => true end) itemss)) by (rewrite Fi; now left).
    apply filter_In in X. destruct X as [X Y]. destruct x as [|i x]; [discriminate|].
    assert (I : In i (concat itemss)) by (apply in_concat; exists (i :: x); split; [exact X|now left]).
    destruct (V i I) as [n ->].
    assert (Z : In n (concat (map behind (concat itemss)))).
    { apply in_concat. exists [n]. split; [|now left]. change [n] with (behind (IVar n)). now apply in_map. }
    rewrite B in Z. destruct Z.
Qed.

Lemma tuples_fail w scope frs :
  (forall f r, In (f, r) frs -> exists items, get_inv_vars w scope (f, r) = Ok items) ->
  (exists f r, In (f, r) frs /\ series_factor f = true /\ (r_opt1 r <> [] \/ r_opt2 r <> [])) ->
  replica_assigned w scope frs = Raise AttributeError.
Proof.
  intros T (f & r & Hf & Sf & Hr). unfold replica_assigned.
  destruct (mapm_total (get_inv_vars w scope) frs) as [itemss E].
  { intros [f' r'] H. now apply T. }
  rewrite E. cbn [bind]. apply mapm_forall2 in E.
  assert (K : (exists ns, In (ITuple ns) (concat itemss)) /\
     (forall i, In i (concat itemss) -> (exists n, i = IVar n) \/ exists l, i = ITuple l)).
  { clear T. induction E as [|[f' r'] items frs itemss E Es IH]; [destruct Hf|].
    destruct (items_kinds _ _ _ _ _ E) as (K1 & _ & K3).
    assert (A : forall i, In i (concat itemss) -> (exists n, i = IVar n) \/ exists l, i = ITuple l).
    { clear -Es. induction Es as [|[f'' r''] items frs itemss E Es IH]; [intros i []|].
      intros i Hi. cbn in Hi. apply in_app_or in Hi. destruct Hi as [Hi|Hi]; [|auto].
      now apply (items_kinds _ _ _ _ _ E). }
    split.
    - destruct Hf as [Hf|Hf].
      + inversion Hf; subst. destruct (K3 Sf Hr) as [ns Hn]. exists ns. cbn. apply in_or_app. now left.
      + destruct (IH Hf) as [[ns Hn] _]. exists ns. cbn. apply in_or_app. now right.
    - intros i Hi. cbn in Hi. apply in_app_or in Hi. destruct Hi as [Hi|Hi]; auto. }
  destruct K as [[ns K] A].
  destruct (filter _ itemss) as [|x l] eqn:Fi.
  - exfalso. rewrite <- (concat_nonempty itemss), Fi in K. destruct K.
  - rewrite <- Fi, concat_nonempty. exact (assigned_tuple _ ns K A).
Qed.

(** * Statistics *)

Lemma asks_true_names rq : forall st st', NoDup (names st ++ names rq) ->
  foldm (ask true) rq st = Ok st' -> names st' = names st ++ names rq.
Proof.
  induction rq as [|v rq IH]; intros st st' N H; cbn [foldm] in H.
  - inversion H. cbn. now rewrite app_nil_r.
  - apply bind_ok in H as (st1 & E & H).
    assert (X : lookup (v_name v) st = None).
    { apply lookup_none. cbn in N. apply NoDup_remove_2 in N. intro K. apply N. apply in_or_app. now left. }
    unfold ask, get_variable in E. rewrite X in E. destruct v as [n s i]. apply Ok_inj in E. subst st1.
    assert (A : names (st ++ [mkVar n s i]) ++ names rq = names st ++ names (mkVar n s i :: rq)).
    { rewrite names_app. cbn. now rewrite <- app_assoc. }
    rewrite <- A. apply IH; [|exact H]. rewrite A. exact N.
Qed.

Lemma slash_cancel x a b : slash x a = slash x b -> a = b.
Proof. unfold slash. intro H. apply sapp_inj in H. now inversion H. Qed.
Lemma slash_slash x a b : slash (slash x a) b = slash x (slash a b).
Proof. unfold slash. now rewrite !sapp_assoc. Qed.

Lemma nodup_slash x l : NoDup l -> NoDup (map (slash x) l).
Proof.
  induction 1 as [|a l N D IH]; cbn; constructor; [|exact IH]. intro H. apply in_map_iff in H.
  destruct H as (b & E & Hb). apply slash_cancel in E. now subst.
Qed.

Lemma cov_names k w scope f rq : cov_reqs k w scope f = Ok rq ->
  exists vs, var_scope w f = Ok vs /\
    exists tail, names rq = map (slash (slash scope vs)) (["cov/var"; "cov/total_weight"]%string ++ tail) /\
      (spatially_uncorrelated f = true -> tail = [] \/ tail = ["mu/var"; "mu/total_weight"]%string) /\
      (spatially_uncorrelated f = true -> k_zero_mean k = true -> tail = []) /\
      (spatially_uncorrelated f = false ->
       tail = match f with FCMulti _ _ _ true => ["cov_dt1/var"; "cov_dt1/total_weight"]%string | _ => [] end).
Proof.
  intro R. unfold cov_reqs in R. apply bind_ok in R as (vs & V & R). apply bind_ok in R as (s & S & R).
  exists vs. split; [exact V|]. apply Ok_inj in R. subst rq.
  assert (A : forall x i, names (average_reqs (slash (slash scope vs) x) s i) =
      map (slash (slash scope vs)) [slash x "var"; slash x "total_weight"]).
  { intros x i. cbn. now rewrite !slash_slash. }
  rewrite names_app, A.
  destruct f; try (exists []; split; [reflexivity|]; split; [discriminate|]; split; [discriminate|]; reflexivity).
  - destruct (k_zero_mean k); [exists []; split; [reflexivity|]; split; [now left|]; split; [reflexivity|discriminate]|].
    destruct (in_channels filter) as [c|];
      [|exists []; split; [reflexivity|]; split; [now left|]; split; [reflexivity|discriminate]].
    exists ["mu/var"; "mu/total_weight"]%string. split.
    + unfold average_reqs. cbn. now rewrite !slash_slash.
    + split; [now right|]. split; discriminate.
  - destruct dt1.
    + exists ["cov_dt1/var"; "cov_dt1/total_weight"]%string. rewrite A.
      split; [reflexivity|]. split; [discriminate|]. split; [discriminate|reflexivity].
    + exists []. split; [reflexivity|]. split; [discriminate|]. split; [discriminate|reflexivity].
Qed.

Lemma cov_listed k w scope f st' : instantiate_cov k w scope f [] = Ok st' ->
  exists items, get_cov_vars k w scope f = Ok items /\ items <> [] /\
    (forall i, In i items -> exists ns, i = IValue ns) /\
    incl (concat (map behind items)) (names st') /\
    (k_zero_debias k = true -> spatially_uncorrelated f = false \/ k_zero_mean k = true ->
       concat (map behind items) = names st').
Proof.
  intro H. apply instantiate_cov_asks in H as (rq & R & A).
  destruct (cov_names _ _ _ _ _ R) as (vs & V & tail & N & T1 & T2 & T3).
  assert (D : NoDup (names [] ++ names rq)).
  { rewrite N. apply nodup_slash. destruct (spatially_uncorrelated f).
    - destruct (T1 eq_refl) as [-> | ->]; repeat constructor; cbn; intuition discriminate.
    - rewrite T3 by reflexivity. destruct f; try destruct dt1; repeat constructor; cbn; intuition discriminate. }
  rewrite (asks_true_names _ _ _ D A). cbn [names map app]. rewrite N. unfold get_cov_vars. rewrite V. cbn [bind].
  assert (I : forall x, exists ns, average_item k x = IValue ns).
  { intro x. unfold average_item. destruct (k_zero_debias k); eauto. }
  assert (Q : exists items, match f with
      | FCMulti _ _ _ true => Ok [average_item k (slash (slash scope vs) "cov"); average_item k (slash (slash scope vs) "cov_dt1")]
      | _ => Ok [average_item k (slash (slash scope vs) "cov")] end = Ok items /\
      (items = [average_item k (slash (slash scope vs) "cov")] /\ (spatially_uncorrelated f = false -> tail = []) \/
       items = [average_item k (slash (slash scope vs) "cov"); average_item k (slash (slash scope vs) "cov_dt1")] /\
         tail = ["cov_dt1/var"; "cov_dt1/total_weight"]%string)).
  { destruct f; try (eexists; split; [reflexivity|]; left; split; [reflexivity|]; intro U; apply T3; exact U).
    destruct dt1; eexists; (split; [reflexivity|]).
    - right. split; [reflexivity|]. apply T3. reflexivity.
    - left. split; [reflexivity|]. intro U. apply T3. reflexivity. }
  destruct Q as (items & E & Q). exists items. split; [exact E|].
  destruct Q as [[-> U]|[-> ->]].
  - split; [discriminate|]. split; [intros i [<-|[]]; apply I|].
    unfold average_item. split.
    + intros n Hn. destruct (k_zero_debias k); cbn in Hn; repeat (destruct Hn as [<-|Hn]; [rewrite slash_slash; cbn; auto 8|]); destruct Hn.
    + intros Z [F|F]; rewrite Z; cbn; rewrite !slash_slash.
      * now rewrite (U F).
      * destruct (spatially_uncorrelated f); [rewrite (T2 eq_refl F)|rewrite (U eq_refl)]; reflexivity.
  - split; [discriminate|]. split; [intros i [<-|[<-|[]]]; apply I|].
    unfold average_item. split.
    + intros n Hn. destruct (k_zero_debias k); cbn in Hn; repeat (destruct Hn as [<-|Hn]; [rewrite slash_slash; cbn; auto 8|]); destruct Hn.
    + intros Z _. rewrite Z. cbn. now rewrite !slash_slash.
Qed.

Lemma cov_mean_hidden k w scope a filter ext st' :
  k_zero_mean k = false -> instantiate_cov k w scope (ConvInputSUA a filter ext) [] = Ok st' ->
  forall items, get_cov_vars k w scope (ConvInputSUA a filter ext) = Ok items ->
  exists n, In n (names st') /\ ~ In n (concat (map behind items)).
Proof.
  intros Z H items G.
  assert (C : exists c, in_channels filter = Ok c).
  { unfold instantiate_cov in H. apply bind_ok in H as (vs & V & H). apply bind_ok in H as (s & S & H).
    apply bind_ok in H as (st1 & M & H). rewrite Z in H. apply bind_ok in H as (c & C & H). eauto. }
  destruct C as [c C].
  apply instantiate_cov_asks in H as (rq & R & A).
  apply asks_auto in A as (_ & _ & A); [|constructor].
  unfold cov_reqs in R. apply bind_ok in R as (vs & V & R). apply bind_ok in R as (s & S & R). apply Ok_inj in R. subst rq.
  unfold get_cov_vars in G. rewrite V in G. cbn [bind] in G. apply Ok_inj in G. subst items.
  rewrite Z, C in A.
  exists (slash (slash (slash scope vs) "mu") "var"). split.
  - assert (B := A (mkVar (slash (slash (slash scope vs) "mu") "var") [c; 1] Zeros)). clear A.
    unfold names. apply (in_map fst) in B; [|apply in_or_app; right; now left]. rewrite map_map in B. exact B.
  - unfold average_item. rewrite !slash_slash.
    destruct (k_zero_debias k); cbn; intros K; repeat destruct K as [K|K]; try exact K;
      rewrite ?slash_slash in K; repeat apply slash_cancel in K; discriminate K.
Qed.
