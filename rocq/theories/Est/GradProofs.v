(** Gradient lists, the refusal of unconnected tensors, and the statistics of the variables. *)
From Coq Require Import String QArith Arith Bool List Reals Lia Lra.
From Verif.Base Require Import Py.
From Verif.Train Require Import Model.
From Verif.Replica Require Import Model.
From Verif.Est Require Import Model Spec.
Import ListNotations.
Open Scope list_scope.

Lemma pack_map {A} (f : nat -> A) ts : pack ts (map f (concat ts)) = map (map f) ts.
Proof.
  induction ts as [|t r IH]; [reflexivity|]. cbn [pack concat map]. rewrite map_app.
  rewrite firstn_app, map_length, Nat.sub_diag, firstn_O, app_nil_r.
  rewrite firstn_all2 by now rewrite map_length.
  rewrite skipn_app, map_length, Nat.sub_diag, skipn_O.
  rewrite skipn_all2 by now rewrite map_length. cbn [app]. now rewrite IH.
Qed.

(** The gradient with respect to one tensor *)
Definition grad_of (g : graph) (contrib : nat -> nat -> vec) (ls : list nat) (x : nat) : option vec :=
  match filter (fun l => g_dep g l x) ls with
  | [] => None
  | ds => Some (vsum (g_dim g x) (map (fun l => contrib l x) ds))
  end.

Lemma grad_of_none g c ls x : grad_of g c ls x = None <-> (forall l, In l ls -> g_dep g l x = false).
Proof.
  unfold grad_of. destruct (filter _ ls) as [|d ds] eqn:E.
  - split; [|reflexivity]. intros _ l Hl. destruct (g_dep g l x) eqn:D; [|reflexivity].
    assert (In l (filter (fun l => g_dep g l x) ls)) by (apply filter_In; now split).
    rewrite E in H. destruct H.
  - split; [discriminate|]. intro H. assert (In d (filter (fun l => g_dep g l x) ls)) by (rewrite E; now left).
    apply filter_In in H0. rewrite (H d) in H0 by apply H0. destruct H0; discriminate.
Qed.

Lemma none_connected g c x : is_none (grad_of g c (g_losses g) x) = true <-> ~ connected g x.
Proof.
  destruct (grad_of g c (g_losses g) x) as [vv|] eqn:E; cbn [is_none]; split.
  - discriminate.
  - intro H. exfalso. assert (grad_of g c (g_losses g) x = None); [|congruence].
    apply grad_of_none. intros l Hl. destruct (g_dep g l x) eqn:D; [|reflexivity].
    exfalso. apply H. now exists l.
  - intros _ [l0 [Hl D]]. rewrite grad_of_none in E. rewrite (E l0 Hl) in D. discriminate.
  - reflexivity.
Qed.

Lemma one_gradient_eq g c ts :
  one_gradient g c ts = map (fun t => [map (grad_of g c (g_losses g)) t]) ts.
Proof. unfold one_gradient, tf_gradients. fold (grad_of g c (g_losses g)). now rewrite (pack_map (grad_of g c (g_losses g))), map_map. Qed.

Lemma one_gradient_flat g c ts :
  concat (map (@concat (option vec)) (one_gradient g c ts)) = map (grad_of g c (g_losses g)) (concat ts).
Proof.
  rewrite one_gradient_eq, map_map. induction ts as [|t r IH]; [reflexivity|].
  cbn [map concat]. rewrite map_app, <- IH. now rewrite app_nil_r.
Qed.

Lemma one_gradient_mode_eq g mode ts :
  one_gradient_mode g mode -> exists c, get_grads_lists mode g ts = Ok (one_gradient g c ts) /\
    (mode = "empirical"%string -> c = g_data g).
Proof.
  intros [ -> | [ [ -> Ht ] | [ -> | -> ] ] ].
  - exists (g_sample g). split; [reflexivity|discriminate].
  - exists (g_data g). cbn. unfold get_empirical. now rewrite Ht.
  - exists (g_signs g). split; [reflexivity|discriminate].
  - exists (g_signs g). split; [reflexivity|discriminate].
Qed.

Lemma zip_map {A B} (f : A -> B) l : zip l (map f l) = map (fun x => (x, f x)) l.
Proof. induction l as [|a l IH]; [reflexivity|]. cbn. now rewrite IH. Qed.

Lemma in_named {A} (f : nat -> option A) l x :
  In x (map fst (filter (fun p => is_none (snd p)) (zip l (map f l)))) <-> In x l /\ is_none (f x) = true.
Proof.
  rewrite zip_map, in_map_iff. split.
  - intros [[y o] [<- H]]. apply filter_In in H. destruct H as [H N]. apply in_map_iff in H.
    destruct H as [z [E Hz]]. inversion E; subst. now split.
  - intros [Hx N]. exists (x, f x). split; [reflexivity|]. apply filter_In. split; [|exact N].
    apply in_map_iff. now exists x.
Qed.

Lemma existsb_none g c l :
  existsb is_none (map (grad_of g c (g_losses g)) l) = false <-> (forall x, In x l -> connected g x).
Proof.
  split.
  - intros H x Hx. destruct (grad_of g c (g_losses g) x) as [vv|] eqn:E.
    + destruct (grad_of_none g c (g_losses g) x) as [_ K].
      destruct (existsb (fun l => g_dep g l x) (g_losses g)) eqn:D.
      * apply existsb_exists in D. destruct D as [l' D]. now exists l'.
      * rewrite K in E; [discriminate|]. intros l' Hl'. destruct (g_dep g l' x) eqn:D'; [|reflexivity].
        assert (existsb (fun l => g_dep g l x) (g_losses g) = true) by (apply existsb_exists; now exists l').
        congruence.
    + assert (existsb is_none (map (grad_of g c (g_losses g)) l) = true); [|congruence].
      apply existsb_exists. exists None. split; [|reflexivity]. rewrite <- E. now apply in_map.
  - intro H. destruct (existsb _ _) eqn:E; [|reflexivity]. apply existsb_exists in E.
    destruct E as [o [Ho N]]. apply in_map_iff in Ho. destruct Ho as [x [<- Hx]].
    apply none_connected in N. now destruct (N (H x Hx)).
Qed.

Lemma concat_singles {A} (l : list A) : concat (map (fun v => [v]) l) = l.
Proof. induction l as [|a l IH]; [reflexivity|]. cbn. now rewrite IH. Qed.

(** What is needed, when it can be put together *)
Lemma tensors_needed vars stats blocks :
  (stats <> None -> exists l, vars = PList l) ->
  exists ts, match stats with None => Ok blocks | Some _ => list_plus blocks vars end = Ok ts /\
    concat ts = needed vars stats blocks /\
    ts = blocks ++ match stats with None => [] | Some _ => map (fun v => [v]) (items vars) end.
Proof.
  intro H. unfold needed. destruct stats as [b|].
  - destruct H as [l ->]; [discriminate|]. eexists. split; [reflexivity|]. cbn [items].
    split; [|reflexivity]. now rewrite concat_app, concat_singles.
  - exists blocks. now rewrite !app_nil_r.
Qed.

Lemma firstn_map_app {A B} (f : A -> B) l m : firstn (length l) (map f (l ++ m)) = map f l.
Proof. rewrite map_app, firstn_app, map_length, Nat.sub_diag, firstn_O, app_nil_r. apply firstn_all2. now rewrite map_length. Qed.
Lemma skipn_map_app {A B} (f : A -> B) l m : skipn (length l) (map f (l ++ m)) = map f m.
Proof. rewrite map_app, skipn_app, map_length, Nat.sub_diag, skipn_O. rewrite skipn_all2 by now rewrite map_length. reflexivity. Qed.

Lemma refusal g mode vars stats blocks :
  one_gradient_mode g mode ->
  (stats <> None -> exists l, vars = PList l /\ l <> []) ->
  ((exists gr st, instantiate_factors mode vars stats g blocks = Instantiated gr st) <->
     (forall x, In x (needed vars stats blocks) -> connected g x)) /\
  (~ (forall x, In x (needed vars stats blocks) -> connected g x) ->
     exists named, instantiate_factors mode vars stats g blocks = Unconnected named /\
       forall x, In x named <-> In x (needed vars stats blocks) /\ ~ connected g x).
Proof.
  intros Hm Hv.
  destruct (tensors_needed vars stats blocks) as (ts & Et & Ec & Ea).
  { intro N. destruct (Hv N) as (l & -> & _). now exists l. }
  destruct (one_gradient_mode_eq g mode ts Hm) as (c & Eg & _).
  unfold instantiate_factors. rewrite Et, Eg. cbn [bind].
  rewrite one_gradient_flat, Ec.
  destruct (existsb is_none (map (grad_of g c (g_losses g)) (needed vars stats blocks))) eqn:E.
  - assert (N : ~ forall x, In x (needed vars stats blocks) -> connected g x).
    { intro K. rewrite <- (existsb_none g c) in K. congruence. }
    split.
    + split; [intros (gr & st & D); discriminate|]. intro K. contradiction.
    + intros _. eexists. split; [reflexivity|]. intro x. rewrite in_named. now rewrite none_connected.
  - rewrite existsb_none in E. split; [|contradiction]. split; [intros _; exact E|]. intros _.
    destruct stats as [b|]; [|eauto]. destruct Hv as (l & -> & Hl); [discriminate|].
    rewrite Ea, one_gradient_eq, map_map, skipn_map_app, map_map.
    cbn [items]. destruct l; [contradiction|]. cbn [map]. eauto.
Qed.

(** * Sums *)

Open Scope R_scope.

Lemma vadd_nth j : forall x y, length x = length y -> nth j (vadd x y) 0 = nth j x 0 + nth j y 0.
Proof.
  unfold vadd. induction j as [|j IH]; intros [|a x] [|b y] H; cbn in *; try discriminate; try lra.
  apply IH. lia.
Qed.

Lemma vadd_length : forall x y, length x = length y -> length (vadd x y) = length x.
Proof.
  unfold vadd. induction x as [|a x IH]; intros [|b y] H; cbn in *; try discriminate; [reflexivity|].
  f_equal. apply IH. lia.
Qed.

Lemma vsum_nth d l : (forall v, In v l -> length v = d) ->
  length (vsum d l) = d /\ forall j, nth j (vsum d l) 0 = rsum (map (fun v => nth j v 0) l).
Proof.
  induction l as [|v l IH]; intro H.
  - cbn. split; [now rewrite repeat_length|]. intro j. now rewrite nth_repeat.
  - destruct IH as [L N]; [intros w Hw; apply H; now right|].
    assert (Lv : length v = d) by (apply H; now left).
    change (vsum d (v :: l)) with (vadd v (vsum d l)). split.
    + rewrite vadd_length; congruence.
    + intro j. rewrite vadd_nth by congruence. cbn. now rewrite N.
Qed.

Lemma rsum_filter (dep : nat -> bool) (f : nat -> R) ls :
  (forall l, dep l = false -> f l = 0) -> rsum (map f (filter dep ls)) = rsum (map f ls).
Proof.
  intro H. induction ls as [|l ls IH]; [reflexivity|]. unfold rsum in *. cbn. destruct (dep l) eqn:D; cbn; rewrite IH; [reflexivity|].
  rewrite (H l D). lra.
Qed.

Lemma grad_of_value g c ls x v : well_formed g c -> grad_of g c ls x = Some v ->
  length v = g_dim g x /\ forall j, nth j v 0 = rsum (map (fun l => nth j (c l x) 0) ls).
Proof.
  intros W K.
  assert (E : v = vsum (g_dim g x) (map (fun l => c l x) (filter (fun l => g_dep g l x) ls))).
  { unfold grad_of in K. destruct (filter (fun l => g_dep g l x) ls); [discriminate|congruence]. }
  clear K. subst v.
  destruct (vsum_nth (g_dim g x) (map (fun l => c l x) (filter (fun l => g_dep g l x) ls))) as [L N].
  { intros w Hw. apply in_map_iff in Hw. destruct Hw as [l [<- _]]. apply W. }
  split; [exact L|]. intro j. rewrite N, map_map.
  apply (rsum_filter (fun l => g_dep g l x)). intros l D. now apply W.
Qed.

Lemma vscale_nth a v j : nth j (vscale a v) 0 = a * nth j v 0.
Proof.
  unfold vscale. destruct (Nat.lt_ge_cases j (length v)).
  - rewrite (nth_indep _ 0 (a * 0)) by now rewrite map_length. apply map_nth.
  - rewrite !nth_overflow; [lra|assumption|now rewrite map_length].
Qed.

Lemma known_grads g c ls t :
  (forall x, In x t -> exists v, grad_of g c ls x = Some v) ->
  known (map (grad_of g c ls) t) = map (fun x => match grad_of g c ls x with Some v => v | None => [] end) t.
Proof.
  induction t as [|x t IH]; intro H; [reflexivity|]. unfold known in *. cbn.
  destruct (H x (or_introl eq_refl)) as [v ->]. cbn. f_equal. apply IH. intros y Hy. apply H. now right.
Qed.

Lemma zip_singles (f : nat -> list (list vec)) vs : zip vs (map f vs) = map (fun v => (v, f v)) vs.
Proof. apply zip_map. Qed.

Lemma stats_value_of g mode c vs blocks batch :
  (forall ts, get_grads_lists mode g ts = Ok (one_gradient g c ts)) -> well_formed g c -> vs <> [] ->
  (forall x, In x (needed (PList vs) (Some batch) blocks) -> connected g x) ->
  exists gr sts,
    instantiate_factors mode (PList vs) (Some batch) g blocks = Instantiated gr (Some sts) /\
    instantiate_factors mode (PList vs) None g blocks = Instantiated gr None /\
    length sts = length vs /\
    forall i j, (i < length vs)%nat ->
      length (nth i sts []) = g_dim g (nth i vs 0%nat) /\
      nth j (nth i sts []) 0
      = rsum (map (fun l => nth j (c l (nth i vs 0%nat)) 0) (g_losses g)) / INR batch.
Proof.
  intros Ht W Hne Hc. unfold instantiate_factors. cbn [list_plus].
  rewrite !Ht.
  rewrite !one_gradient_flat.
  assert (E1 : existsb is_none (map (grad_of g c (g_losses g)) (concat (blocks ++ map (fun v => [v]) vs))) = false).
  { apply existsb_none. intros x Hx. apply Hc. unfold needed. cbn [items]. rewrite concat_app, concat_singles in Hx. exact Hx. }
  assert (E2 : existsb is_none (map (grad_of g c (g_losses g)) (concat blocks)) = false).
  { apply existsb_none. intros x Hx. apply Hc. unfold needed. apply in_or_app. now left. }
  rewrite E1, E2, !one_gradient_eq, !map_map. cbn [items].
  assert (Hs : forall x, In x vs -> exists v, grad_of g c (g_losses g) x = Some v).
  { intros x Hx. destruct (grad_of g c (g_losses g) x) eqn:E; [eauto|].
    assert (connected g x) by (apply Hc; unfold needed; apply in_or_app; now right).
    exfalso. apply (proj1 (none_connected g c x)); [now rewrite E|assumption]. }
  rewrite firstn_map_app, skipn_map_app. rewrite (firstn_all2 (map _ blocks)) by now rewrite map_length.
  rewrite map_map.
  match goal with |- context [match map ?f vs with _ => _ end] => set (rest := f) end.
  destruct (map rest vs) as [|r0 rs0] eqn:Er; [destruct vs; [contradiction|discriminate]|].
  rewrite <- Er. clear r0 rs0 Er. subst rest.
  eexists. exists (map (fun v => variable_stat g batch v
       [[match grad_of g c (g_losses g) v with Some x => x | None => [] end]]) vs).
  split; [|split; [reflexivity|split; [now rewrite map_length|]]].
  - f_equal. f_equal. rewrite zip_map, map_map. apply map_ext_in. intros v Hv. cbn.
    destruct (Hs v Hv) as [x ->]. reflexivity.
  - intros i j Hi.
    assert (In (nth i vs 0%nat) vs) by now apply nth_In.
    destruct (Hs _ H) as [x Ex]. destruct (grad_of_value _ _ _ _ _ W Ex) as [Lx Nx].
    rewrite (nth_indep _ [] (variable_stat g batch 0%nat
       [[match grad_of g c (g_losses g) 0%nat with Some x => x | None => [] end]])) by now rewrite map_length.
    rewrite (map_nth (fun v => variable_stat g batch v _) vs 0%nat i), Ex. unfold variable_stat. cbn [map hd vsum fold_right].
    split.
    + unfold vscale. rewrite map_length, vadd_length; [exact Lx|now rewrite repeat_length].
    + rewrite vscale_nth, vadd_nth by now rewrite repeat_length.
      rewrite nth_repeat, Nx. unfold Rdiv. lra.
Qed.

Lemma mode_one g mode : one_gradient_mode g mode ->
  forall ts, get_grads_lists mode g ts = Ok (one_gradient g (differentiated g mode) ts).
Proof.
  intros [->|[[-> H]|[->| ->]]] ts; try reflexivity.
  unfold get_grads_lists, differentiated. cbn [String.eqb Ascii.eqb Bool.eqb andb]. unfold get_empirical.
  now rewrite H.
Qed.

(** * Exact mode *)

Lemma pack_length {A} ts : forall flat : list A, length (pack ts flat) = length ts.
Proof. induction ts as [|t r IH]; intro f; cbn; [reflexivity|]. now rewrite IH. Qed.

Lemma in_concat_nth {A} (o : A) row : In o (concat row) <->
  exists j, (j < length row)%nat /\ In o (nth j row []).
Proof.
  split.
  - intro H. apply in_concat in H. destruct H as (x & Hx & Ho). destruct (In_nth _ _ [] Hx) as (j & Hj & <-).
    now exists j.
  - intros (j & Hj & Ho). apply in_concat. exists (nth j row []). split; [now apply nth_In|exact Ho].
Qed.

Lemma in_unzip {A} width (rows : list (list (list A))) o :
  (forall row, In row rows -> length row = width) ->
  (In o (concat (map (@concat A) (unzip_rows width rows))) <-> exists row, In row rows /\ In o (concat row)).
Proof.
  intro H. destruct rows as [|r0 rs] eqn:E.
  - cbn. split; [tauto|]. intros (row & [] & _).
  - unfold unzip_rows. rewrite <- E in *. clear r0 rs E. rewrite in_concat. split.
    + intros (l & Hl & Ho). rewrite map_map in Hl. apply in_map_iff in Hl. destruct Hl as (j & <- & Hj).
      apply in_concat in Ho. destruct Ho as (t & Ht & Ho). apply in_map_iff in Ht.
      destruct Ht as (row & <- & Hr). exists row. split; [exact Hr|]. apply in_concat_nth. exists j.
      split; [|exact Ho]. apply in_seq in Hj. rewrite (H row Hr). lia.
    + intros (row & Hr & Ho). apply in_concat_nth in Ho. destruct Ho as (j & Hj & Ho).
      exists (concat (map (fun row => nth j row []) rows)). split.
      * rewrite map_map. apply in_map_iff. exists j. split; [reflexivity|]. apply in_seq.
        rewrite (H row Hr) in Hj. lia.
      * apply in_concat. exists (nth j row []). split; [|exact Ho]. apply in_map_iff. now exists row.
Qed.

Lemma exact_none g ts gls : get_exact false g ts = Ok gls ->
  (existsb is_none (concat (map (@concat (option vec)) gls)) = false <->
   forall l x, In l (g_losses g) -> (0 < g_inner g l)%nat -> In x (concat ts) -> g_dep g l x = true).
Proof.
  unfold get_exact. destruct (g_losses g) as [|l0 ls0] eqn:E.
  - intros [= <-]. split; [intros _ l x []|reflexivity].
  - rewrite <- E. clear l0 ls0 E. intros [= <-].
    match goal with |- context [unzip_rows _ ?r] => set (rows := r) end.
    assert (Hrows : forall row, In row rows <-> exists l i, In l (g_losses g) /\ (i < g_inner g l)%nat /\
      row = map (map (grad_of g (fun l' x => g_hot g l' i x) [l])) ts).
    { intro row. unfold rows. rewrite in_concat. split.
      - intros (r & Hr & Hrow). apply in_map_iff in Hr. destruct Hr as (l & <- & Hl).
        apply in_map_iff in Hrow. destruct Hrow as (i & <- & Hi). apply in_seq in Hi.
        exists l, i. split; [exact Hl|]. split; [lia|]. now rewrite <- pack_map.
      - intros (l & i & Hl & Hi & ->). eexists. split; [apply in_map_iff; exists l; split; [reflexivity|exact Hl]|].
        apply in_map_iff. exists i. split; [|apply in_seq; lia]. now rewrite <- pack_map. }
    assert (Hw : forall row, In row rows -> length row = length ts).
    { intros row Hr. apply Hrows in Hr. destruct Hr as (l & i & _ & _ & ->). now rewrite map_length. }
    assert (Hin : forall o, In o (concat (map (@concat (option vec)) (unzip_rows (length ts) rows))) <->
       exists l i x, In l (g_losses g) /\ (i < g_inner g l)%nat /\ In x (concat ts) /\
         o = grad_of g (fun l' x => g_hot g l' i x) [l] x).
    { intro o. rewrite in_unzip by exact Hw. split.
      - intros (row & Hr & Ho). apply Hrows in Hr. destruct Hr as (l & i & Hl & Hi & ->).
        rewrite <- concat_map in Ho. apply in_map_iff in Ho. destruct Ho as (x & <- & Hx). now exists l, i, x.
      - intros (l & i & x & Hl & Hi & Hx & ->). eexists. split; [apply Hrows; now exists l, i|].
        rewrite <- concat_map. apply in_map_iff. now exists x. }
    split.
    + intros H l x Hl Hi Hx. destruct (g_dep g l x) eqn:D; [reflexivity|].
      assert (existsb is_none (concat (map (@concat (option vec)) (unzip_rows (length ts) rows))) = true); [|congruence].
      apply existsb_exists. exists None. split; [|reflexivity]. apply Hin. exists l, O, x.
      repeat split; try assumption. symmetry. apply grad_of_none. intros l' [<-|[]]. exact D.
    + intro H. destruct (existsb _ _) eqn:X; [|reflexivity]. apply existsb_exists in X.
      destruct X as (o & Ho & N). apply Hin in Ho. destruct Ho as (l & i & x & Hl & Hi & Hx & ->).
      destruct (grad_of g _ [l] x) eqn:K; [discriminate|].
      rewrite grad_of_none in K.
      assert (Hi0 : (0 < g_inner g l)%nat) by lia. specialize (H l x Hl Hi0 Hx).
      rewrite (K l (or_introl eq_refl)) in H. discriminate.
Qed.

(** All pairs of a loss and an index of its inner vectors *)
Definition directions (g : graph) : list (nat * nat) :=
  concat (map (fun l => map (fun i => (l, i)) (seq 0 (g_inner g l))) (g_losses g)).
Definition along (g : graph) (p : nat * nat) : nat -> option vec :=
  grad_of g (fun l' x => g_hot g l' (snd p) x) [fst p].

Lemma map_nth_seq {A} (ts : list (list A)) : map (fun j => nth j ts []) (seq 0 (length ts)) = ts.
Proof.
  induction ts as [|t ts IH]; [reflexivity|].
  cbn [length seq map nth]. f_equal. rewrite <- seq_shift, map_map. exact IH.
Qed.

Lemma exact_eq g ts : directions g <> [] ->
  get_exact false g ts = Ok (map (fun t => map (fun p => map (along g p) t) (directions g)) ts).
Proof.
  intro Hd. unfold get_exact. destruct (g_losses g) as [|l0 ls0] eqn:E.
  { exfalso. apply Hd. unfold directions. now rewrite E. }
  rewrite <- E. clear l0 ls0 E. f_equal.
  assert (Er : concat (map (fun l => map (fun i =>
                 pack ts (tf_gradients g (fun l' x => g_hot g l' i x) [l] (concat ts)))
               (seq 0 (g_inner g l))) (g_losses g))
          = map (fun p => map (map (along g p)) ts) (directions g)).
  { unfold directions. rewrite concat_map, map_map. f_equal. apply map_ext. intro l. rewrite map_map.
    apply map_ext. intro i. unfold tf_gradients, along. cbn [fst snd].
    exact (pack_map (grad_of g (fun l' x => g_hot g l' i x) [l]) ts). }
  rewrite Er. unfold unzip_rows. destruct (directions g) as [|p ps]; [contradiction|]. cbn [map].
  set (row := fun p => map (map (along g p)) ts).
  change (map (map (along g p)) ts) with (row p).
  clear Hd Er. rewrite (map_ext (fun j => nth j (row p) [] :: map (fun r => nth j r []) (map (fun p => map (map (along g p)) ts) ps))
     (fun j => (fun t => map (along g p) t :: map (fun q => map (along g q) t) ps) (nth j ts []))).
  - rewrite <- (map_map (fun j => nth j ts []) (fun t => map (along g p) t :: map (fun q => map (along g q) t) ps)).
    now rewrite map_nth_seq.
  - intro j. rewrite map_map. unfold row.
    assert (K : forall q, nth j (map (map (along g q)) ts) [] = map (along g q) (nth j ts [])).
    { intro q. exact (map_nth (map (along g q)) ts [] j). }
    rewrite K. f_equal. apply map_ext. exact K.
Qed.

Lemma some_direction g : (exists l, In l (g_losses g) /\ (0 < g_inner g l)%nat) -> directions g <> [].
Proof.
  intros (l0 & Hl0 & Hi0) E. assert (H : In (l0, 0%nat) (directions g)).
  { unfold directions. apply in_concat. eexists. split; [apply in_map_iff; exists l0; split; [reflexivity|exact Hl0]|].
    apply in_map_iff. exists 0%nat. split; [reflexivity|]. apply in_seq. lia. }
  rewrite E in H. destruct H.
Qed.

Lemma exact_accepts g vars stats blocks :
  (stats <> None -> exists l, vars = PList l /\ l <> []) ->
  (stats <> None -> exists l, In l (g_losses g) /\ (0 < g_inner g l)%nat) ->
  ((exists gr st, instantiate_factors "exact" vars stats g blocks = Instantiated gr st) <->
   (forall l x, In l (g_losses g) -> (0 < g_inner g l)%nat -> In x (needed vars stats blocks) -> g_dep g l x = true)).
Proof.
  intros Hv Hl0.
  destruct (tensors_needed vars stats blocks) as (ts & Et & Ec & Ea).
  { intro N. destruct (Hv N) as (l & -> & _). now exists l. }
  unfold instantiate_factors. rewrite Et. unfold get_grads_lists.
  cbn [String.eqb Ascii.eqb Bool.eqb andb orb].
  destruct (get_exact false g ts) as [gls|e] eqn:Eg.
  2:{ unfold get_exact in Eg. destruct (g_losses g); discriminate. }
  pose proof (exact_none _ _ _ Eg) as K. rewrite Ec in K. rewrite <- K.
  destruct (existsb is_none _) eqn:E.
  - split; [intros (gr & st & D); discriminate|discriminate].
  - split; [reflexivity|]. intros _. destruct stats as [b|]; [|eauto].
    destruct Hv as (l & -> & Hl); [discriminate|].
    rewrite exact_eq in Eg by (apply some_direction, Hl0; discriminate). injection Eg as <-. cbn [items] in Ea.
    rewrite Ea, map_map, skipn_map_app, map_map. destruct l; [contradiction|]. cbn [map]. eauto.
Qed.

Lemma rsum_app a b : rsum (a ++ b) = rsum a + rsum b.
Proof. unfold rsum. induction a as [|x a IH]; cbn; [lra|]. rewrite IH. lra. Qed.

Lemma rsum_directions (f : nat -> nat -> R) ls (inner : nat -> nat) :
  rsum (map (fun p => f (fst p) (snd p)) (concat (map (fun l => map (fun i => (l, i)) (seq 0 (inner l))) ls)))
  = rsum (map (fun l => rsum (map (fun i => f l i) (seq 0 (inner l)))) ls).
Proof.
  induction ls as [|l ls IH]; [reflexivity|]. cbn [map concat]. rewrite map_app, rsum_app, IH, map_map.
  unfold rsum at 3. cbn [map fold_right]. reflexivity.
Qed.

Lemma exact_stats_value g vs blocks batch :
  (forall i, well_formed g (fun l x => g_hot g l i x)) -> vs <> [] ->
  (exists l, In l (g_losses g) /\ (0 < g_inner g l)%nat) ->
  (forall l x, In l (g_losses g) -> (0 < g_inner g l)%nat ->
     In x (needed (PList vs) (Some batch) blocks) -> g_dep g l x = true) ->
  exists gr sts,
    instantiate_factors "exact" (PList vs) (Some batch) g blocks = Instantiated gr (Some sts) /\
    instantiate_factors "exact" (PList vs) None g blocks = Instantiated gr None /\
    length sts = length vs /\
    forall i j, (i < length vs)%nat ->
      length (nth i sts []) = g_dim g (nth i vs 0%nat) /\
      nth j (nth i sts []) 0
      = rsum (map (fun l => rsum (map (fun k => nth j (g_hot g l k (nth i vs 0%nat)) 0)
                                    (seq 0 (g_inner g l)))) (g_losses g)) / INR batch.
Proof.
  intros W Hne Hl0 Hc. pose proof (some_direction g Hl0) as Hd.
  assert (Hin : forall l i, In (l, i) (directions g) -> In l (g_losses g) /\ (i < g_inner g l)%nat).
  { intros l i H. unfold directions in H. apply in_concat in H. destruct H as (r & Hr & H).
    apply in_map_iff in Hr. destruct Hr as (l' & <- & Hl). apply in_map_iff in H. destruct H as (i' & [= -> ->] & H).
    apply in_seq in H. split; [exact Hl|lia]. }
  assert (Hs : forall p x, In p (directions g) -> In x (needed (PList vs) (Some batch) blocks) ->
             exists v, along g p x = Some v).
  { intros [l i] x Hp Hx. destruct (Hin l i Hp) as [Hl Hi]. unfold along. cbn [fst snd].
    destruct (grad_of g _ [l] x) eqn:E; [eauto|]. rewrite grad_of_none in E.
    specialize (E l (or_introl eq_refl)). rewrite (Hc l x Hl) in E; [discriminate|lia|exact Hx]. }
  unfold instantiate_factors. cbn [list_plus].
  unfold get_grads_lists. cbn [String.eqb Ascii.eqb Bool.eqb andb orb].
  rewrite !exact_eq by exact Hd. cbn [bind].
  assert (E : forall ts, (forall x, In x (concat ts) -> In x (needed (PList vs) (Some batch) blocks)) ->
     existsb is_none (concat (map (@concat (option vec)) (map (fun t => map (fun p => map (along g p) t) (directions g)) ts))) = false).
  { intros ts Hts. destruct (existsb _ _) eqn:X; [|reflexivity]. exfalso. apply existsb_exists in X.
    destruct X as (o & Ho & N). apply in_concat in Ho. destruct Ho as (r & Hr & Ho). rewrite map_map in Hr.
    apply in_map_iff in Hr. destruct Hr as (t & <- & Ht). apply in_concat in Ho. destruct Ho as (r & Hr & Ho).
    apply in_map_iff in Hr. destruct Hr as (p & <- & Hp). apply in_map_iff in Ho. destruct Ho as (x & <- & Hx).
    destruct (Hs p x Hp) as [v Ev]; [apply Hts; apply in_concat; eauto|]. rewrite Ev in N. discriminate. }
  rewrite (E (blocks ++ map (fun v => [v]) vs)), (E blocks).
  2:{ intros x Hx. unfold needed. apply in_or_app. now left. }
  2:{ intros x Hx. unfold needed. cbn [items]. rewrite concat_app, concat_singles in Hx. exact Hx. }
  cbn [items]. rewrite !map_map, firstn_map_app, skipn_map_app. rewrite (firstn_all2 (map _ blocks)) by now rewrite map_length.
  rewrite map_map.
  match goal with |- context [match map ?f vs with _ => _ end] => set (rest := f) end.
  destruct (map rest vs) as [|r0 rs0] eqn:Er; [destruct vs; [contradiction|discriminate]|].
  rewrite <- Er. clear r0 rs0 Er. subst rest.
  set (val := fun p v => match along g p v with Some x => x | None => [] end).
  eexists. exists (map (fun v => variable_stat g batch v (map (fun p => [val p v]) (directions g))) vs).
  split; [|split; [reflexivity|split; [now rewrite map_length|]]].
  - f_equal. f_equal. rewrite zip_map, map_map. apply map_ext_in. intros v Hv. cbn [fst snd].
    f_equal. rewrite map_map. apply map_ext_in. intros p Hp. unfold val.
    destruct (Hs p v Hp) as [x Ex]; [unfold needed; apply in_or_app; now right|].
    unfold known. cbn [map concat]. now rewrite Ex.
  - intros i j Hi.
    assert (Hv : In (nth i vs 0%nat) vs) by now apply nth_In.
    rewrite (nth_indep _ [] (variable_stat g batch 0%nat (map (fun p => [val p 0%nat]) (directions g)))) by now rewrite map_length.
    rewrite (map_nth (fun v => variable_stat g batch v (map (fun p => [val p v]) (directions g))) vs 0%nat i).
    set (v := nth i vs 0%nat) in *. unfold variable_stat. rewrite map_map. cbn [hd].
    assert (Hval : forall p, In p (directions g) -> length (val p v) = g_dim g v /\
              nth j (val p v) 0 = nth j (g_hot g (fst p) (snd p) v) 0).
    { intros [l k] Hp. unfold val. destruct (Hs (l, k) v Hp) as [x Ex]; [unfold needed; apply in_or_app; now right|].
      rewrite Ex. unfold along in Ex. destruct (grad_of_value _ _ _ _ _ (W k) Ex) as [L N]. cbn [fst snd] in *.
      split; [exact L|]. rewrite N. unfold rsum. cbn. lra. }
    destruct (vsum_nth (g_dim g v) (map (fun p => val p v) (directions g))) as [L N].
    { intros w Hw. apply in_map_iff in Hw. destruct Hw as (p & <- & Hp). now apply Hval. }
    split.
    + unfold vscale. now rewrite map_length.
    + rewrite vscale_nth, N, map_map. rewrite (map_ext_in _ (fun p => nth j (g_hot g (fst p) (snd p) v) 0)) by (intros p Hp; now apply Hval).
      unfold directions. rewrite (rsum_directions (fun l k => nth j (g_hot g l k v) 0)). unfold Rdiv. lra.
Qed.

Lemma grads_length mode g ts gls : get_grads_lists mode g ts = Ok gls -> (length gls <= length ts)%nat.
Proof.
  assert (K : forall c, length (one_gradient g c ts) = length ts).
  { intro c. rewrite one_gradient_eq. apply map_length. }
  assert (U : forall w (rows : list (list (list (option vec)))), (length (unzip_rows w rows) <= w)%nat).
  { intros w [|r rows]; [apply Nat.le_0_l|]. unfold unzip_rows. now rewrite map_length, seq_length. }
  unfold get_grads_lists, get_empirical, get_exact. intro H.
  repeat match type of H with
         | context [if ?b then _ else _] => destruct b
         | context [match g_losses g with _ => _ end] => destruct (g_losses g)
         end; try discriminate; injection H as <-; rewrite ?K; cbn [length]; try lia.
  apply U.
Qed.
