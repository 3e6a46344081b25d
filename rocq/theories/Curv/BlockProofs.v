(** Proofs about the block-wise transformations. *)
From Coq Require Import List Arith Bool Lia Permutation.
From Verif.Base Require Import Py ListFacts.
From Verif.Curv Require Import Model Spec.
Import ListNotations.
Open Scope list_scope.

Lemma mapM_ok {A B} (f : A -> res B) l bs :
  mapM f l = Ok bs <-> Forall2 (fun a b => f a = Ok b) l bs.
Proof.
  revert bs; induction l as [|a l IH]; simpl; intros bs.
  - split; intros H; [injection H as <-; constructor|inversion H; auto].
  - destruct (f a) as [b|e] eqn:E; simpl.
    + destruct (mapM f l) as [bs'|e'] eqn:El; simpl.
      * split; intros H.
        -- injection H as <-. constructor; auto. apply IH; auto.
        -- inversion H as [|? b0 ? bs0 Hb Hr]; subst. assert (Heq := proj2 (IH _) Hr).
           rewrite E in Hb. congruence.
      * split; intros H; [discriminate|].
        inversion H as [|? b0 ? bs0 Hb Hr]; subst. apply IH in Hr. discriminate.
    + split; intros H; [discriminate|]. inversion H; congruence.
Qed.

Lemma mapM_ext {A B} (f g : A -> res B) l :
  (forall a, In a l -> f a = g a) -> mapM f l = mapM g l.
Proof.
  induction l as [|a l IH]; simpl; intros H; auto.
  rewrite (H a) by auto. rewrite IH; auto.
Qed.

Lemma mapM_total {A B} (f : A -> res B) l :
  (forall a, In a l -> exists b, f a = Ok b) -> exists bs, mapM f l = Ok bs.
Proof.
  induction l as [|a l IH]; simpl; intros H; eauto.
  destruct (H a) as [b ->]; auto. destruct IH as [bs ->]; auto. simpl; eauto.
Qed.

(** Dictionary lookup. *)
Lemma dget_in {X} (d : list (nat * X)) k x : dget d k = Ok x -> In (k, x) d.
Proof.
  induction d as [|[k' x'] d IH]; simpl; [discriminate|].
  destruct (Nat.eqb_spec k' k); intros H; [injection H as <-; subst; auto|right; auto].
Qed.

Lemma dget_nodup {X} (d : list (nat * X)) k x :
  NoDup (map fst d) -> In (k, x) d -> dget d k = Ok x.
Proof.
  induction d as [|[k' x'] d IH]; simpl; [tauto|].
  intros N H; inversion N as [|? ? Hn N']; subst.
  destruct H as [H|H].
  - injection H as -> ->. rewrite Nat.eqb_refl; auto.
  - destruct (Nat.eqb_spec k' k); auto. subst. exfalso; apply Hn.
    apply (in_map fst) in H; auto.
Qed.

Lemma dget_missing {X} (d : list (nat * X)) k : ~ In k (map fst d) -> dget d k = Raise KeyError.
Proof.
  induction d as [|[k' x'] d IH]; simpl; auto.
  intros H. destruct (Nat.eqb_spec k' k); [subst; tauto|apply IH; tauto].
Qed.

Definition vecs_of {V} (l : list (V * nat)) : list (nat * V) := rev (map (fun p => (snd p, fst p)) l).

Lemma vecs_of_in {V} (l : list (V * nat)) v x : In (v, x) (vecs_of l) <-> In (x, v) l.
Proof.
  unfold vecs_of. rewrite <- in_rev, in_map_iff. split.
  - intros [[x' v'] [E H]]; simpl in E; injection E as <- <-; auto.
  - intros H; exists (x, v); auto.
Qed.

Lemma vecs_of_fst {V} (l : list (V * nat)) : map fst (vecs_of l) = rev (map snd l).
Proof. unfold vecs_of. rewrite map_rev, map_map. simpl. reflexivity. Qed.

Lemma dget_vecs {V} (l : list (V * nat)) v x :
  NoDup (map snd l) -> (dget (vecs_of l) v = Ok x <-> In (x, v) l).
Proof.
  intros N; split; intros H.
  - apply vecs_of_in, dget_in, H.
  - apply dget_nodup; [|apply vecs_of_in, H].
    rewrite vecs_of_fst. apply NoDup_rev; auto.
Qed.

Lemma dget_vecs_perm {V} (l l' : list (V * nat)) v :
  NoDup (map snd l) -> Permutation l l' -> dget (vecs_of l) v = dget (vecs_of l') v.
Proof.
  intros N P. assert (N' : NoDup (map snd l')) by (apply (Permutation_NoDup (Permutation_map snd P) N)).
  destruct (dget (vecs_of l') v) as [x|e] eqn:E.
  - apply dget_vecs; auto. apply dget_vecs in E; auto. apply (Permutation_in _ (Permutation_sym P) E).
  - destruct (dget (vecs_of l) v) as [x|e'] eqn:E'.
    + apply dget_vecs in E'; auto. apply (Permutation_in _ P) in E'.
      apply (dget_vecs l' v x N') in E'. congruence.
    + assert (He : forall (d : list (nat * V)) e, dget d v = Raise e -> e = KeyError).
      { clear. induction d as [|[k x] d IH]; simpl; intros e H; [congruence|].
        destruct (Nat.eqb k v); [discriminate|auto]. }
      apply He in E, E'. congruence.
Qed.

Lemma Forall2_dget_get {V} (l : list (V * nat)) vs xs :
  NoDup (map snd l) ->
  (mapM (dget (vecs_of l)) vs = Ok xs <-> Forall2 (fun x w => In (x, w) l) xs vs).
Proof.
  intros N. rewrite mapM_ok. split; intros H.
  - induction H; constructor; auto. apply dget_vecs; auto.
  - induction H; constructor; auto. apply dget_vecs; auto.
Qed.

(** Filling the result dictionary. *)
Definition entries {V} (k : bkey) (r : bval V) : list (nat * bval V) :=
  match k, r with
  | KVar v, _ => [(v, r)]
  | KTup vs, Many xs => map (fun p => (fst p, One (snd p))) (zip vs xs)
  | KTup _, One _ => []
  end.
Definition settable {V} (k : bkey) (r : bval V) : Prop :=
  match k, r with KTup _, One _ => False | _, _ => True end.

Lemma trans_set_spec {V} (d : list (nat * bval V)) k r d' :
  trans_set d k r = Ok d' <-> settable k r /\ d' = rev (entries k r) ++ d.
Proof.
  destruct k as [v|vs], r as [x|xs]; simpl.
  - split; [intros H; injection H as <-; auto|intros [_ ->]; auto].
  - split; [intros H; injection H as <-; auto|intros [_ ->]; auto].
  - split; [discriminate|intros [[] _]].
  - split; [intros H; injection H as <-; auto|intros [_ ->]; auto].
Qed.

Lemma trans_fill_spec {V} (l : list (bkey * bval V)) d d' :
  trans_fill d l = Ok d' <->
  Forall (fun p => settable (fst p) (snd p)) l /\
  d' = rev (concat (map (fun p => entries (fst p) (snd p)) l)) ++ d.
Proof.
  revert d; induction l as [|[k r] l IH]; simpl; intros d.
  - split; [intros H; injection H as <-; auto|intros [_ ->]; auto].
  - destruct (trans_set d k r) as [d1|e] eqn:E; simpl.
    + apply trans_set_spec in E as [Hs ->]. rewrite IH. rewrite rev_app_distr, <- app_assoc.
      split; intros [H1 H2]; split; auto. inversion H1; auto.
    + split; [discriminate|]. intros [H _]. inversion H as [|? ? Hs _]; subst; simpl in Hs.
      assert (X : trans_set d k r = Ok (rev (entries k r) ++ d)) by (apply trans_set_spec; auto).
      congruence.
Qed.

Lemma entries_fst {V} k (r : bval V) : exists t, vars k = map fst (entries k r) ++ t.
Proof.
  destruct k as [v|vs], r as [x|xs]; simpl; try (exists []; auto; fail).
  - exists vs; auto.
  - rewrite map_map; simpl. clear. revert xs; induction vs as [|v vs IH]; intros [|x xs]; simpl; eauto.
    destruct (IH xs) as [t Ht]. exists t. f_equal; auto.
Qed.

Lemma entries_in {V} k (r : bval V) v y :
  In (v, y) (entries k r) <->
  match k, r with
  | KVar w, _ => v = w /\ y = r
  | KTup vs, Many xs => exists i x, nth_error vs i = Some v /\ nth_error xs i = Some x /\ y = One x
  | KTup _, One _ => False
  end.
Proof.
  destruct k as [w|vs], r as [x|xs]; simpl; try (split; [intros [H|[]]; injection H as <- <-; auto|intros [-> ->]; auto]); try tauto.
  rewrite in_map_iff. split.
  - intros [[v' x'] [E H]]; simpl in E; injection E as <- <-.
    apply In_nth_error in H as [i Hi]. rewrite nth_error_zip in Hi.
    destruct (nth_error vs i) eqn:E1, (nth_error xs i) eqn:E2; try discriminate.
    injection Hi as <- <-. eauto.
  - intros [i [x [H1 [H2 ->]]]]. exists (v, x); split; auto.
    apply nth_error_In with i. rewrite nth_error_zip, H1, H2; auto.
Qed.

Lemma Forall2_zip_in {A B} (P : A -> B -> Prop) l m a b :
  Forall2 P l m -> In (a, b) (zip l m) -> P a b.
Proof. induction 1; simpl; [tauto|]. intros [E|H']; [injection E as <- <-; auto|auto]. Qed.

Lemma in_zip_map_fst {A B C} (f : A -> C) (l : list A) (m : list B) c b :
  In (c, b) (zip (map f l) m) -> exists a, In (a, b) (zip l m) /\ c = f a.
Proof.
  revert m; induction l as [|a l IH]; intros [|b' m]; simpl; try tauto.
  intros [E|H]; [injection E as <- <-; eauto|]. destruct (IH _ H) as [a' [H1 H2]]; eauto.
Qed.

Lemma nodup_tail {A} (a b : list A) : NoDup (a ++ b) -> NoDup b.
Proof. induction a; simpl; auto. intros N; inversion N; auto. Qed.

Section Ct.
Context {V B : Type} (f : B -> bval V -> res (bval V)).
Variables (blocks : list (bkey * B)) (l : list (V * nat)).
Hypothesis Hdis : NoDup (all_vars blocks).
Hypothesis Hl : NoDup (map snd l).

Let step (kb : bkey * B) : res (bval V) :=
  do v <- vecs_get (vecs_of l) (fst kb); f (snd kb) v.

(** All entries written by the blocks. *)
Definition written (results : list (bval V)) : list (nat * bval V) :=
  concat (map (fun p => entries (fst p) (snd p)) (zip (map fst blocks) results)).

Lemma written_nodup results : NoDup (map fst (written results)).
Proof.
  unfold written. revert results Hdis. unfold all_vars.
  induction blocks as [|[k b] bs IH]; intros [|r rs] N; simpl; try constructor.
  simpl in N. rewrite map_app. destruct (entries_fst k r) as [t Ht].
  rewrite Ht in N.
  assert (N1 : NoDup (map fst (entries k r) ++ concat (map (fun p => vars (fst p)) bs))).
  { rewrite <- app_assoc in N. clear IH. revert N. generalize (map fst (entries k r)) as a.
    generalize (concat (map (fun p => vars (fst p)) bs)) as c. clear.
    intros c a. induction a as [|x a IH]; simpl; intros N.
    - apply nodup_tail in N; auto.
    - inversion N as [|? ? Hn N']; subst. constructor; [|apply IH; auto].
      rewrite in_app_iff in *. rewrite in_app_iff in Hn. tauto. }
  assert (Hsub : forall x, In x (map fst (concat (map (fun p => entries (fst p) (snd p)) (zip (map fst bs) rs)))) ->
                 In x (concat (map (fun p => vars (fst p)) bs))).
  { clear. revert rs; induction bs as [|[k b] bs IH]; intros [|r rs] x; simpl; try tauto.
    rewrite map_app, !in_app_iff. intros [H|H]; [|right; eapply IH; eauto].
    left. destruct (entries_fst k r) as [t ->]. apply in_or_app; auto. }
  specialize (IH rs (nodup_tail _ _ N1)).
  clear - N1 Hsub IH. revert N1. generalize (map fst (entries k r)) as a. intros a N1.
  induction a as [|x a IHa]; simpl; auto. simpl in N1. inversion N1 as [|? ? Hn N']; subst.
  constructor; auto. rewrite in_app_iff in *. intros [H|H]; apply Hn; auto.
Qed.

Lemma ct_ok out :
  compute_transformation blocks l f = Ok out <->
  exists results,
    Forall2 (fun kb r => step kb = Ok r) blocks results /\
    Forall (fun p => settable (fst p) (snd p)) (zip (map fst blocks) results) /\
    Forall2 (fun p q => In (snd p, fst q) (written results) /\ snd q = snd p) l out.
Proof.
  unfold compute_transformation. fold (vecs_of l).
  change (fun kb => do v <- vecs_get (vecs_of l) (fst kb); f (snd kb) v) with step.
  destruct (mapM step blocks) as [rs|e] eqn:E; simpl.
  - pose proof (proj1 (mapM_ok _ _ _) E) as F.
    destruct (trans_fill [] (zip (map fst blocks) rs)) as [tv|e] eqn:E2; simpl.
    + apply trans_fill_spec in E2 as [Hs ->]. rewrite app_nil_r. fold (written rs).
      assert (D : forall v y, dget (rev (written rs)) v = Ok y <-> In (v, y) (written rs)).
      { intros v y. split; intros H.
        - apply in_rev, dget_in, H.
        - apply dget_nodup; [rewrite map_rev; apply NoDup_rev, written_nodup|apply -> in_rev; auto]. }
      rewrite mapM_ok. split.
      * intros H. exists rs. split; [auto|split; [auto|]].
        clear - H D. induction H as [|p q l' out' H1 H2 IH]; constructor; auto.
        destruct (dget (rev (written rs)) (snd p)) as [y|] eqn:Ey; simpl in H1; [|discriminate].
        injection H1 as <-. simpl. split; auto. apply D; auto.
      * intros [rs' [F' [Hs' H]]].
        assert (rs' = rs).
        { clear - F F'. revert rs' F'. induction F; intros rs' F'; inversion F'; subst; auto.
          f_equal; [congruence|auto]. }
        subst rs'. clear - H D. induction H as [|p q l' out' [H1 H1'] H2 IH]; constructor; auto.
        apply D in H1. rewrite H1. simpl. destruct q; simpl in *; subst; auto.
    + split; [discriminate|]. intros [rs' [F' [Hs' H]]].
      assert (rs' = rs).
      { clear - F F'. revert rs' F'. induction F; intros rs' F'; inversion F'; subst; auto.
        f_equal; [congruence|auto]. }
      subst rs'. assert (X := proj2 (trans_fill_spec _ [] _) (conj Hs' eq_refl)). congruence.
  - split; [discriminate|]. intros [rs' [F' _]]. apply mapM_ok in F'. congruence.
Qed.

Lemma ct_vars out : compute_transformation blocks l f = Ok out -> map snd out = map snd l.
Proof.
  intros H; apply ct_ok in H as [rs [_ [_ H]]].
  clear - H. induction H as [|p q l' o' [_ H1] _ IH]; simpl; congruence.
Qed.

Lemma ct_result out y v :
  compute_transformation blocks l f = Ok out -> In (y, v) out ->
  exists kb, In kb blocks /\ In v (vars (fst kb)) /\ block_result f l kb v y.
Proof.
  intros H Hin; apply ct_ok in H as [rs [F [Hs H]]].
  assert (W : In (v, y) (written rs)).
  { clear - H Hin. induction H as [|p q l' o' [H1 H2] _ IH]; simpl in *; [tauto|].
    destruct Hin as [->|Hin]; auto. simpl in *. subst; auto. }
  unfold written in W. apply in_concat in W as [es [Hes W]].
  apply in_map_iff in Hes as [[k r] [<- Hz]]. simpl in W.
  apply in_zip_map_fst in Hz as [[k' b] [Hz Ek]]. simpl in Ek; subst k'.
  pose proof (Forall2_zip_in _ _ _ _ _ F Hz) as Hst.
  assert (Hb : In (k, b) blocks).
  { clear - Hz. revert rs Hz; induction blocks as [|a bs IH]; intros [|r' rs]; simpl; try tauto.
    intros [E|H]; [injection E as -> ->; auto|right; eauto]. }
  exists (k, b). split; auto. apply entries_in in W. simpl.
  unfold step in Hst; simpl in Hst.
  destruct k as [w|vs].
  - destruct W as [-> ->]. split; [simpl; auto|]. simpl in Hst.
    destruct (dget (vecs_of l) w) as [x|] eqn:Ex; simpl in Hst; [|discriminate].
    apply br_var with x; auto. apply dget_vecs; auto.
  - destruct r as [x|xs]; [tauto|]. destruct W as [i [x [H1 [H2 ->]]]].
    split; [simpl; apply nth_error_In with i; auto|]. simpl in Hst.
    destruct (mapM (dget (vecs_of l)) vs) as [us|] eqn:Eu; simpl in Hst; [|discriminate].
    apply br_tup with us xs i; auto. apply Forall2_dget_get; auto.
Qed.

Lemma block_result_fun kb v y y' : NoDup (vars (fst kb)) ->
  block_result f l kb v y -> block_result f l kb v y' -> y = y'.
Proof.
  intros N H H'. inversion H as [v0 b x y0 Hx Hf|vs b xs ys i v0 y0 Hxs Hf Hi Hy]; subst.
  - inversion H' as [v1 b1 x1 y1 Hx1 Hf1|]; subst.
    assert (x1 = x); [|congruence].
    apply (dget_vecs l v x Hl) in Hx. apply (dget_vecs l v x1 Hl) in Hx1. congruence.
  - inversion H' as [|vs1 b1 xs1 ys1 i1 v1 y1 Hxs1 Hf1 Hi1 Hy1]; subst.
    assert (xs1 = xs).
    { apply (Forall2_dget_get l) in Hxs; auto. apply (Forall2_dget_get l) in Hxs1; auto. congruence. }
    subst. rewrite Hf in Hf1; injection Hf1 as <-.
    assert (i1 = i); [|congruence].
    simpl in N. apply (proj1 (NoDup_nth_error vs) N); [apply nth_error_Some; congruence|congruence].
Qed.

Lemma ct_missing_input kb v :
  In kb blocks -> In v (vars (fst kb)) -> ~ In v (map snd l) ->
  exists e, compute_transformation blocks l f = Raise e.
Proof.
  intros Hb Hv Hn. destruct (compute_transformation blocks l f) as [out|e] eqn:E; [|eauto].
  exfalso. apply ct_ok in E as [rs [F _]].
  assert (exists r, step kb = Ok r) as [r Hr].
  { clear - F Hb. induction F; simpl in *; [tauto|]. destruct Hb as [->|Hb]; eauto. }
  unfold step in Hr. destruct kb as [[w|vs] b]; simpl in *.
  - destruct Hv as [<-|[]]. rewrite dget_missing in Hr; [discriminate|].
    rewrite vecs_of_fst, <- in_rev; auto.
  - destruct (mapM (dget (vecs_of l)) vs) as [us|] eqn:Eu; simpl in Hr; [|discriminate].
    apply Forall2_dget_get in Eu; auto. clear - Eu Hv Hn.
    induction Eu as [|x w us ws H1 _ IH]; simpl in *; [tauto|].
    destruct Hv as [->|Hv]; auto. apply (in_map snd) in H1; auto.
Qed.

Lemma ct_unregistered v :
  In v (map snd l) -> ~ In v (all_vars blocks) ->
  exists e, compute_transformation blocks l f = Raise e.
Proof.
  intros Hv Hn. destruct (compute_transformation blocks l f) as [out|e] eqn:E; [|eauto].
  exfalso. pose proof (ct_vars _ E) as Hs. rewrite <- Hs in Hv.
  apply in_map_iff in Hv as [[y w] [Ew Hin]]; simpl in Ew; subst w.
  destruct (ct_result _ _ _ E Hin) as [kb [H1 [H2 _]]].
  apply Hn. unfold all_vars. apply in_concat. exists (vars (fst kb)); split; auto.
  apply in_map_iff; eauto.
Qed.

Lemma ct_total :
  Forall (well_behaved f) blocks ->
  (forall v, In v (all_vars blocks) <-> In v (map snd l)) ->
  exists out, compute_transformation blocks l f = Ok out.
Proof.
  intros Hw Hc.
  assert (Hget : forall v, In v (all_vars blocks) -> exists x, dget (vecs_of l) v = Ok x).
  { intros v Hv. apply Hc in Hv. apply in_map_iff in Hv as [[x w] [E Hx]]; simpl in E; subst w.
    exists x. apply dget_vecs; auto. }
  assert (Hex : exists rs, Forall2 (fun kb r => step kb = Ok r) blocks rs /\
     Forall (fun p => settable (fst p) (snd p)) (zip (map fst blocks) rs) /\
     (forall v, In v (all_vars blocks) -> exists y, In (v, y) (written rs))).
  { unfold written. clear Hc Hdis. unfold all_vars in *.
    induction Hw as [|[k b] bs Hb Hbs IH].
    - exists []; simpl; split; [constructor|split; [constructor|tauto]].
    - simpl in Hget. destruct IH as [rs [F [Hs Hwr]]].
      { intros v Hv. apply Hget. apply in_or_app; auto. }
      assert (exists r, step (k, b) = Ok r /\ settable k r /\ map fst (entries k r) = vars k)
        as [r [Hr [Hset Hent]]].
      { unfold step, well_behaved in *; simpl in *. destruct k as [w|vs]; simpl in *.
        - destruct (Hget w) as [x ->]; auto. simpl. destruct (Hb x) as [y ->]. exists (One y); auto.
        - destruct (mapM_total (dget (vecs_of l)) vs) as [us Hus].
          { intros w Hin; apply Hget. apply in_or_app; auto. }
          rewrite Hus; simpl. destruct (Hb us) as [ys [-> Hlen]].
          { apply mapM_ok in Hus. symmetry. clear - Hus. induction Hus; simpl; auto. }
          exists (Many ys); simpl; split; [auto|split; [auto|]].
          rewrite map_map; simpl. clear - Hlen. revert ys Hlen.
          induction vs as [|v vs IH]; intros [|y ys] H; simpl in *; try discriminate; auto.
          f_equal; auto. }
      exists (r :: rs). split; [constructor; auto|split; [simpl; constructor; auto|]].
      intros v Hv; simpl in *. rewrite in_app_iff in Hv. destruct Hv as [Hv|Hv].
      + rewrite <- Hent in Hv. apply in_map_iff in Hv as [[v' y] [E Hy]]; simpl in E; subst v'.
        exists y. apply in_or_app; auto.
      + destruct (Hwr v Hv) as [y Hy]. exists y. apply in_or_app; auto. }
  destruct Hex as [rs [F [Hs Hwr]]].
  assert (exists out, Forall2 (fun p q => In (snd p, fst q) (written rs) /\ snd q = snd p) l out) as [out Hout].
  { assert (Hin : forall p, In p l -> exists y, In (snd p, y) (written rs)).
    { intros p Hp. apply Hwr, Hc, in_map; auto. }
    clear - Hin. induction l as [|p l' IH]; [exists []; constructor|].
    destruct IH as [out Ho]; [intros; apply Hin; simpl; auto|].
    destruct (Hin p) as [y Hy]; [simpl; auto|].
    exists ((y, snd p) :: out). constructor; auto. }
  exists out. apply ct_ok. exists rs; auto.
Qed.
End Ct.

Lemma ct_perm {V B} (f : B -> bval V -> res (bval V)) (blocks : list (bkey * B)) (l l' : list (V * nat)) out :
  NoDup (all_vars blocks) -> NoDup (map snd l) -> Permutation l l' ->
  compute_transformation blocks l f = Ok out ->
  exists out', compute_transformation blocks l' f = Ok out' /\ Permutation out out' /\ map snd out' = map snd l'.
Proof.
  intros Hd Hl P H.
  assert (Hl' : NoDup (map snd l')) by (apply (Permutation_NoDup (Permutation_map snd P) Hl)).
  apply ct_ok in H as [rs [F [Hs H]]]; auto.
  assert (exists out', Forall2 (fun p q => In (snd p, fst q) (written blocks rs) /\ snd q = snd p) l' out' /\
    Permutation out out') as [out' [H' Hp]].
  { clear - P H. revert out H. induction P; intros out H.
    - inversion H; subst. exists []; split; constructor.
    - inversion H as [|? q ? o' H1 H2]; subst. destruct (IHP _ H2) as [o'' [H3 H4]].
      exists (q :: o''); split; constructor; auto.
    - inversion H as [|? q ? o' H1 H2]; subst. inversion H2 as [|? q2 ? o2 H3 H4]; subst.
      exists (q2 :: q :: o2). split; [constructor; auto|constructor].
    - destruct (IHP1 _ H) as [o1 [H1 P1']]. destruct (IHP2 _ H1) as [o2 [H2 P2']].
      exists o2; split; auto. eapply perm_trans; eauto. }
  assert (E : compute_transformation blocks l' f = Ok out').
  { apply ct_ok; auto. exists rs. split; [|auto].
    clear - F Hl P. induction F as [|[k b] r bs rs' H1 _ IH]; constructor; auto.
    simpl in *. destruct k as [w|vs]; simpl in *.
    - rewrite <- (dget_vecs_perm l l' w Hl P); auto.
    - rewrite <- (mapM_ext (dget (vecs_of l)) (dget (vecs_of l')) vs); auto.
      intros a _. apply dget_vecs_perm; auto. }
  exists out'; split; [auto|split; [auto|]]. eapply ct_vars; eauto.
Qed.

Lemma ct_wrong_vars {V B} (f : B -> bval V -> res (bval V)) (blocks : list (bkey * B)) (l : list (V * nat)) v :
  NoDup (all_vars blocks) -> NoDup (map snd l) ->
  (In v (all_vars blocks) /\ ~ In v (map snd l)) \/ (In v (map snd l) /\ ~ In v (all_vars blocks)) ->
  exists e, compute_transformation blocks l f = Raise e.
Proof.
  intros Hd Hl [[H1 H2]|[H1 H2]].
  - unfold all_vars in H1. apply in_concat in H1 as [vs [Hvs Hv]]. apply in_map_iff in Hvs as [kb [<- Hb]].
    exact (ct_missing_input f blocks l Hd Hl kb v Hb Hv H2).
  - exact (ct_unregistered f blocks l Hd Hl v H1 H2).
Qed.
Lemma block_unique {B} (blocks : list (bkey * B)) b b' v : NoDup (all_vars blocks) ->
  In b blocks -> In b' blocks -> In v (vars (fst b)) -> In v (vars (fst b')) -> b = b'.
Proof.
  unfold all_vars. induction blocks as [|a bs IH]; simpl; intros N H1 H2 V1 V2; [tauto|].
  assert (D : forall c, In c bs -> In v (vars (fst a)) -> In v (vars (fst c)) -> False).
  { intros c Hc Ha Hv. clear IH H1 H2. revert N Ha. generalize (vars (fst a)) as vs. induction vs as [|w vs IHv]; simpl; [tauto|].
    intros N [->|Ha]; inversion N as [|? ? Hn N']; subst; [|auto].
    apply Hn. apply in_or_app; right. apply in_concat. exists (vars (fst c)); split; auto.
    apply in_map_iff; exists c; auto. }
  destruct H1 as [->|H1], H2 as [->|H2]; auto.
  - exfalso; eauto.
  - exfalso; eauto.
  - apply IH; auto. apply nodup_tail in N; auto.
Qed.
Lemma block_nodup {B} (blocks : list (bkey * B)) b : NoDup (all_vars blocks) -> In b blocks -> NoDup (vars (fst b)).
Proof.
  unfold all_vars. induction blocks as [|a bs IH]; simpl; [tauto|]. intros N [->|H].
  - clear IH. revert N. generalize (vars (fst b)) as vs. induction vs as [|w vs IHv]; simpl; intros N; constructor;
      inversion N; subst; auto. intros H; apply H1, in_or_app; auto.
  - apply IH; auto. apply nodup_tail in N; auto.
Qed.
Lemma ct_local {V B} (f : B -> bval V -> res (bval V)) (blocks : list (bkey * B)) (l l' : list (V * nat))
    out out' b v y y' :
  NoDup (all_vars blocks) -> NoDup (map snd l) -> NoDup (map snd l') ->
  compute_transformation blocks l f = Ok out -> compute_transformation blocks l' f = Ok out' ->
  In b blocks -> In v (vars (fst b)) ->
  (forall x w, In w (vars (fst b)) -> In (x, w) l -> In (x, w) l') ->
  In (y, v) out -> In (y', v) out' -> y = y'.
Proof.
  intros Hd Hl Hl' H H' Hb Hv Hag Hy Hy'.
  destruct (ct_result f blocks l Hd Hl out y v H Hy) as [kb [K1 [K2 K3]]].
  destruct (ct_result f blocks l' Hd Hl' out' y' v H' Hy') as [kb' [K1' [K2' K3']]].
  rewrite (block_unique blocks kb b v) in K3 by auto. rewrite (block_unique blocks kb' b v) in K3' by auto.
  apply (block_result_fun f l' Hl' b v); auto; [apply (block_nodup blocks); auto|].
  inversion K3 as [v0 b0 x y0 Hx Hf|vs b0 xs ys i v0 y0 Hxs Hf Hi Hyy]; subst; simpl in Hag.
  - apply br_var with x; auto.
  - apply br_tup with xs ys i; auto. clear - Hxs Hag. induction Hxs; constructor.
    + apply Hag; simpl; auto.
    + apply IHHxs. intros z w Hw; apply Hag; simpl; auto.
Qed.
