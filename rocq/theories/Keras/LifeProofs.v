(** Invariants of the life cycle of the Keras optimizer. *)
From Coq Require Import String Ascii.
From Coq Require Import QArith List Arith Bool Lia.
From Verif.Base Require Import Py.
From Verif.Keras Require Import Config ConfigProofs Life LifeSpec.
Import ListNotations.
Local Open Scope string_scope.

Ltac fin := repeat match goal with
  | H : (_, _) = (_, _) |- _ => injection H as <- ?; subst
  | H : (_, _, _) = (_, _, _) |- _ => injection H as <- ? ?; subst
  end.

Section L.
Variable model_loss : nat -> option pyval.
Variable glc : nat -> pyval -> res nat.
Variable cvars : nat -> dict -> list string.
Variable uvars : inner -> graph -> list string.
Notation register_layers := (register_layers model_loss glc).
Notation create_inner := (create_inner model_loss glc cvars).
Notation call_and_track := (call_and_track model_loss glc cvars uvars).
Notation minimize := (minimize model_loss glc cvars uvars).
Notation perform := (perform model_loss glc cvars uvars).
Notation history := (history model_loss glc cvars uvars).

Lemma layers_kept m l lc s s' r : register_layers m l lc s = (s', r) ->
  s' = s \/ exists n, s' = use_layers n s.
Proof.
  unfold Life.register_layers. destruct lc as [n|]; [intro H; injection H as <- <-; eauto|].
  destruct (truthy l) as [t|]; [|intro H; injection H as <- <-; auto].
  set (l' := if t then _ else _). destruct m as [m|].
  - destruct (truthy l') as [[|]|]; [|intro H; injection H as <- <-; auto..].
    destruct (glc m l'); intro H; injection H as <- <-; eauto.
  - destruct (truthy l') as [[|]|]; intro H; injection H as <- <-; auto.
Qed.

Lemma create_extends scope ns : forall g g' r, create scope ns g = (g', r) ->
  exists new, g' = (g ++ new)%list /\ (forall v, In v new -> exists n, In n ns /\ v = scope ++ "/" ++ n).
Proof.
  induction ns as [|n ns IH]; intros g g' r H; cbn [create] in H.
  - injection H as <- <-. exists []. split; [now rewrite app_nil_r|]. intros v [].
  - destruct (existsb _ g).
    + injection H as <- <-. exists []. split; [now rewrite app_nil_r|]. intros v [].
    + destruct (IH _ _ _ H) as (new & -> & N). exists ((scope ++ "/" ++ n) :: new). split.
      * now rewrite <- app_assoc.
      * intros v [<-|Hv]; [exists n; split; [now left|reflexivity]|]. destruct (N v Hv) as (k & K & E).
        exists k. split; [now right|exact E].
Qed.

(** What every call preserves.  [names] are the names the optimizer has had. *)
Record inv (names : list string) (model : option nat) (loss : pyval) (s : kst) (g : graph) : Prop := mkInv {
  v_name : In (s_name s) names;
  v_scope : s_scope s = tf_scope (s_name s);
  v_model : s_model s = model;
  v_loss : s_loss s = loss;
  v_fn : s_fn s = None \/ s_fn s = Some (model, loss);
  v_opt : forall i, s_optimizer s = Some i -> i_scope i = s_scope s /\ (i_loss_fn i = None \/ i_loss_fn i = Some (model, loss)) /\
            s_iterations s = true;
  v_tracked : s_tracked s = true -> exists i, s_optimizer s = Some i;
  v_weights : exists it, (s_iterations s = false -> it = [] /\ s_weights s = []) /\
     (s_iterations s = true -> exists n, In n names /\ it = [n ++ "/iter"]) /\ incl it g /\
     (s_tracked s = false -> s_weights s = it) /\
     (s_tracked s = true -> exists g1 g2, g = (g1 ++ g2)%list /\
        s_weights s = (it ++ filter (matches (s_scope s)) g1)%list) }.

Lemma inv_grow names model loss s g new : inv names model loss s g -> inv names model loss s (g ++ new)%list.
Proof.
  intros [A B C D E F G (it & W0 & W1 & W2 & W3 & W4)]. constructor; auto. exists it.
  split; [exact W0|]. split; [exact W1|]. split; [intros x Hx; apply in_or_app; left; auto|]. split; [exact W3|].
  intro T. destruct (W4 T) as (g1 & g2 & -> & W). exists g1, (g2 ++ new)%list. split; [now rewrite app_assoc|exact W].
Qed.

Lemma inv_with names model loss s g k : inv names model loss s g -> inv names model loss (with_kfac s k) g.
Proof. intros [A B C D E F G W]. constructor; auto. Qed.
Lemma inv_layers names model loss s g n : inv names model loss s g -> inv names model loss (use_layers n s) g.
Proof. intros [A B C D E F G W]. constructor; auto. Qed.
Lemma inv_fn names model loss s g : inv names model loss s g -> inv names model loss (make_loss_fn s) g.
Proof. intros [A B C D E F G W]. constructor; auto. cbn. rewrite C, D. now right. Qed.

Lemma inv_iterations names model loss s g s' g' : inv names model loss s g -> iterations s g = (s', g') ->
  inv names model loss s' g' /\ s_iterations s' = true /\ s_optimizer s' = s_optimizer s /\ s_layers s' = s_layers s /\
  s_kfac s' = s_kfac s /\ s_name s' = s_name s /\ s_fn s' = s_fn s.
Proof.
  intros I H. unfold iterations in H. destruct (s_iterations s) eqn:It.
  - injection H as <- <-. auto 10.
  - injection H as <- <-. split; [|cbn; auto 10].
    destruct I as [A B C D E F G (it & W0 & W1 & W2 & W3 & W4)]. destruct (W0 It) as [-> W].
    assert (O : s_optimizer s = None). { destruct (s_optimizer s) as [i|]; [|reflexivity]. destruct (F i eq_refl) as (_ & _ & X). congruence. }
    assert (T : s_tracked s = false). { destruct (s_tracked s); [|reflexivity]. destruct (G eq_refl) as [i X]. congruence. }
    constructor; cbn; auto.
    + intros i X. congruence.
    + exists [s_name s ++ "/iter"]. rewrite W. split; [discriminate|]. split; [intros _; eauto|].
      split; [intros x [<-|[]]; apply in_or_app; right; now left|]. split; [reflexivity|]. congruence.
Qed.

Lemma inv_create names model loss s g s' g' r : inv names model loss s g -> create_inner s g = (s', g', r) ->
  inv names model loss s' g' /\ s_name s' = s_name s /\
  (exists new, g' = (g ++ new)%list) /\
  (forall i, s_optimizer s = Some i -> s' = s /\ g' = g) /\
  (r = Ok tt -> exists i, s_optimizer s' = Some i).
Proof.
  intros I H. unfold Life.create_inner in H. destruct (s_optimizer s) as [i|] eqn:O.
  { injection H as <- <- <-. split; [exact I|]. split; [reflexivity|]. split; [exists []; now rewrite app_nil_r|].
    split; [auto|]. intros _. rewrite O. eauto. }
  destruct (match s_layers s with Some _ => (s, Ok tt) | None => register_layers (s_model s) (s_loss s) None s end) as [s1 r1] eqn:E1.
  assert (I1 : inv names model loss s1 g /\ s_name s1 = s_name s /\ s_optimizer s1 = None).
  { destruct (s_layers s); [injection E1 as <- <-; auto|]. apply layers_kept in E1 as [->|[n ->]]; [auto|].
    split; [now apply inv_layers|]. cbn. auto. }
  destruct I1 as (I1 & N1 & O1).
  assert (Done : forall e, (s1, g, Raise e) = (s', g', r) -> inv names model loss s' g' /\ s_name s' = s_name s /\
     (exists new, g' = (g ++ new)%list) /\ (forall i : inner, None = Some i -> s' = s /\ g' = g) /\ (r = Ok tt -> exists i, s_optimizer s' = Some i)).
  { intros e X. injection X as <- <- <-. split; [exact I1|]. split; [exact N1|]. split; [exists []; now rewrite app_nil_r|].
    split; [discriminate|discriminate]. }
  destruct r1 as [u|e]; [|exact (Done _ H)].
  destruct (truthy _) as [ad|e]; [|exact (Done _ H)].
  destruct (ad && _)%bool; [exact (Done _ H)|].
  set (s2 := if (ad && _)%bool then make_loss_fn s1 else s1) in *.
  assert (I2 : inv names model loss s2 g /\ s_name s2 = s_name s /\ s_optimizer s2 = None).
  { unfold s2. destruct (ad && _)%bool; [|auto]. split; [now apply inv_fn|]. auto. }
  clearbody s2. destruct I2 as (I2 & N2 & O2).
  destruct (iterations s2 g) as [s3 g3] eqn:E3.
  destruct (inv_iterations _ _ _ _ _ _ _ I2 E3) as (I3 & It3 & O3 & L3 & K3 & N3 & F3).
  assert (G3 : exists new, g3 = (g ++ new)%list).
  { unfold iterations in E3. destruct (s_iterations s2); injection E3 as _ <-; eauto. exists []. now rewrite app_nil_r. }
  set (kw := update _ _) in *. set (s4 := with_kfac s3 _) in *.
  assert (I4 : inv names model loss s4 g3) by now apply inv_with.
  destruct (s_layers s4) as [n|].
  - destruct (create (s_scope s4) (cvars n kw) g3) as [g5 r5] eqn:E5.
    destruct (create_extends _ _ _ _ _ E5) as (new & -> & _).
    assert (G5 : exists new', (g3 ++ new)%list = (g ++ new')%list).
    { destruct G3 as [x ->]. exists (x ++ new)%list. now rewrite app_assoc. }
    destruct r5 as [u5|e].
    + injection H as <- <- <-. split; [|split; [cbn; congruence|split; [exact G5|split; [discriminate|intros _; cbn; eauto]]]].
      apply inv_grow with (new := new) in I4. destruct I4 as [A B C D E F G W]. constructor; auto.
      * intros i X. cbn in X. injection X as <-. cbn. split; [reflexivity|]. split; [exact E|exact It3].
      * cbn. intros _. eauto.
    + injection H as <- <- <-. split; [now apply inv_grow|]. split; [cbn; congruence|]. split; [exact G5|]. split; discriminate.
  - injection H as <- <- <-. split; [exact I4|]. split; [cbn; congruence|]. split; [exact G3|]. split; discriminate.
Qed.

Lemma inv_track names model loss s g : inv names model loss s g -> (exists i, s_optimizer s = Some i) ->
  inv names model loss (track s g) g /\ s_name (track s g) = s_name s /\ s_optimizer (track s g) = s_optimizer s.
Proof.
  intros I O. unfold track. destruct (s_tracked s) eqn:T; [auto|]. split; [|cbn; auto].
  destruct I as [A B C D E F G (it & W0 & W1 & W2 & W3 & W4)]. constructor; cbn; auto.
  exists it. destruct O as [i O]. destruct (F i O) as (_ & _ & It).
  split; [intro X; congruence|]. split; [exact W1|]. split; [exact W2|]. split; [discriminate|].
  intros _. exists g, []. split; [now rewrite app_nil_r|]. now rewrite (W3 T).
Qed.

Lemma inv_call names model loss s g s' g' r : inv names model loss s g -> call_and_track s g = (s', g', r) ->
  inv names model loss s' g' /\ s_name s' = s_name s /\ (exists new, g' = (g ++ new)%list) /\
  (forall i, s_optimizer s = Some i -> s_optimizer s' = Some i).
Proof.
  intros I H. unfold Life.call_and_track in H. destruct (create_inner s g) as [[s1 g1] r1] eqn:E1.
  destruct (inv_create _ _ _ _ _ _ _ _ I E1) as (I1 & N1 & (n1 & G1) & K1 & R1).
  assert (K : forall i, s_optimizer s = Some i -> s_optimizer s1 = Some i).
  { intros i O. destruct (K1 i O) as [-> _]. exact O. }
  destruct r1 as [u|e].
  - destruct (s_optimizer s1) as [i1|] eqn:O1.
    + destruct (create (s_scope s1) (uvars i1 g1) g1) as [g2 r2] eqn:E2.
      destruct (create_extends _ _ _ _ _ E2) as (new & -> & _).
      assert (G2 : exists new', (g1 ++ new)%list = (g ++ new')%list) by (rewrite G1; exists (n1 ++ new)%list; now rewrite app_assoc).
      apply inv_grow with (new := new) in I1.
      destruct r2 as [u2|e]; injection H as <- <- <-.
      * destruct (inv_track _ _ _ _ _ I1 (ex_intro _ i1 O1)) as (I2 & N2 & O2). split; [exact I2|]. split; [congruence|].
        split; [exact G2|]. intros i O. rewrite O2, O1. exact (K i O).
      * split; [exact I1|]. split; [exact N1|]. split; [exact G2|]. intros i O. rewrite O1. exact (K i O).
    + injection H as <- <- <-. split; [exact I1|]. split; [exact N1|]. split; [eauto|]. intros i O. rewrite O1. exact (K i O).
  - injection H as <- <- <-. split; [exact I1|]. split; [exact N1|]. split; [eauto|exact K].
Qed.

Lemma inv_perform names model loss c s g s' g' r : inv names model loss s g ->
  (forall v, c = CName v -> In v names) -> perform c s g = (s', g', r) ->
  inv names model loss s' g' /\ (exists new, g' = (g ++ new)%list) /\
  (forall i, s_optimizer s = Some i -> s_optimizer s' = Some i /\ s_name s' = s_name s).
Proof.
  intros I N H. destruct c as [v|m l lc|tb bs| |l|]; cbn [Life.perform] in H.
  - destruct (set_name v s) as [s1 r1] eqn:E. injection H as <- <- <-. unfold set_name in E.
    split; [|split; [exists []; now rewrite app_nil_r|]].
    + destruct (s_optimizer s) as [i|] eqn:O; injection E as <- <-; [exact I|].
      destruct I as [A B C D E F G (it & W0 & W1 & W2 & W3 & W4)]. rewrite O in *.
      assert (T : s_tracked s = false). { destruct (s_tracked s); [|reflexivity]. destruct (G eq_refl) as [i X]. congruence. }
      constructor; cbn; auto; try (intros; congruence). exists it. split; [exact W0|]. split; [exact W1|].
      split; [exact W2|]. split; [exact W3|]. congruence.
    + intros i O. rewrite O in E. injection E as <- <-. auto.
  - destruct (register_layers m l lc s) as [s1 r1] eqn:E. injection H as <- <- <-.
    apply layers_kept in E as [->|[n ->]]; (split; [try apply inv_layers; exact I|]; split; [exists []; now rewrite app_nil_r|]; auto).
  - unfold register_batch in H. destruct (register_train_batch _ tb bs); [|destruct tb as [| | | | |[|] fd|]]; injection H as <- <- <-;
      (split; [try apply inv_with; exact I|]; split; [exists []; now rewrite app_nil_r|]; auto).
  - destruct (inv_create _ _ _ _ _ _ _ _ I H) as (I1 & N1 & G1 & K1 & _). split; [exact I1|]. split; [exact G1|].
    intros i O. destruct (K1 i O) as [-> _]. auto.
  - unfold Life.minimize in H. destruct (minimize_loss (s_kfac s) l) as [k|e].
    + destruct (inv_call _ _ _ _ _ _ _ _ (inv_with _ _ _ _ _ k I) H) as (I1 & N1 & G1 & K1).
      split; [exact I1|]. split; [exact G1|]. intros i O. split; [exact (K1 i O)|exact N1].
    + injection H as <- <- <-. split; [exact I|]. split; [exists []; now rewrite app_nil_r|]. auto.
  - destruct (inv_call _ _ _ _ _ _ _ _ I H) as (I1 & N1 & G1 & K1). split; [exact I1|]. split; [exact G1|].
    intros i O. split; [exact (K1 i O)|exact N1].
Qed.

Lemma inv_history names model loss es : forall s g s' g', inv names model loss s g ->
  incl (names_given es) names -> history es s g = (s', g') ->
  inv names model loss s' g' /\ (exists new, g' = (g ++ new)%list) /\
  (forall i, s_optimizer s = Some i -> s_optimizer s' = Some i /\ s_name s' = s_name s).
Proof.
  induction es as [|e es IH]; intros s g s' g' I N H; cbn [Life.history] in H.
  - injection H as <- <-. split; [exact I|]. split; [exists []; now rewrite app_nil_r|auto].
  - destruct e as [c|ns].
    + destruct (perform c s g) as [[s1 g1] r1] eqn:E.
      assert (Nv : forall v, c = CName v -> In v names) by (intros v ->; apply N; now left).
      destruct (inv_perform _ _ _ _ _ _ _ _ _ I Nv E) as (I1 & (n1 & G1) & K1).
      assert (Nr : incl (names_given es) names) by (intros x Hx; apply N; destruct c; cbn; auto).
      destruct (IH _ _ _ _ I1 Nr H) as (I2 & (n2 & G2) & K2).
      split; [exact I2|]. split; [rewrite G2, G1; exists (n1 ++ n2)%list; now rewrite app_assoc|].
      intros i O. destruct (K1 i O) as [O1 E1]. destruct (K2 i O1) as [O2 E2]. split; [exact O2|congruence].
    + destruct (IH _ _ _ _ (inv_grow _ _ _ _ _ ns I) N H) as (I2 & (n2 & G2) & K2).
      split; [exact I2|]. split; [rewrite G2; exists (ns ++ n2)%list; now rewrite app_assoc|exact K2].
Qed.

Lemma inv_new o name model loss lc g : inv [name] model loss (new_kfac o name model loss lc) g.
Proof.
  constructor; cbn; auto; try discriminate. exists []. repeat split; auto; try discriminate. intros x [].
Qed.
Lemma inv_weaken names names' model loss s g : incl names names' -> inv names model loss s g -> inv names' model loss s g.
Proof.
  intros H [A B C D E F G (it & W0 & W1 & W2 & W3 & W4)]. constructor; auto. exists it. split; [exact W0|].
  split; [|auto]. intro T. destruct (W1 T) as (n & Hn & ->). eauto.
Qed.

Lemma reached o name model loss lc g0 es s g :
  history es (new_kfac o name model loss lc) g0 = (s, g) ->
  inv (name :: names_given es) model loss s g.
Proof.
  intro H. eapply inv_history with (3 := H); [|intros x Hx; now right].
  apply inv_weaken with (names := [name]); [intros x [<-|[]]; now left|]. apply inv_new.
Qed.

Lemma history_app es1 es2 : forall s g, history (es1 ++ es2)%list s g =
  let '(s1, g1) := history es1 s g in history es2 s1 g1.
Proof.
  induction es1 as [|e es IH]; intros s g; cbn; [reflexivity|].
  destruct e; [destruct (perform c s g) as [[s1 g1] r1]|]; apply IH.
Qed.
End L.

(** * Scopes as patterns *)

Lemma plain_matches p : ~ In "."%char (chars p) -> forall s, matches p s = true -> exists t, s = p ++ t.
Proof.
  induction p as [|c p IH]; intros N s H; cbn in *.
  - now exists s.
  - destruct s as [|d s]; [discriminate|]. apply andb_true_iff in H as [A B]. apply orb_true_iff in A as [A|A].
    + apply Ascii.eqb_eq in A. tauto.
    + apply Ascii.eqb_eq in A. subst d. destruct (IH ltac:(tauto) s B) as [t ->]. now exists t.
Qed.

Lemma chars_app a b : chars (a ++ b) = (chars a ++ chars b)%list.
Proof. induction a as [|c a IH]; cbn; [reflexivity|now rewrite IH]. Qed.
Lemma app_assoc_s a b c : (a ++ b) ++ c = a ++ b ++ c.
Proof. induction a as [|x a IH]; cbn; [reflexivity|now rewrite IH]. Qed.

Lemma under_inj n m x y : ~ In "/"%char (chars n) -> ~ In "/"%char (chars m) ->
  n ++ "/" ++ x = m ++ "/" ++ y -> n = m /\ x = y.
Proof.
  revert m. induction n as [|c n IH]; intros [|d m] A B H; cbn in *.
  - injection H as ->. auto.
  - injection H as <- _. tauto.
  - injection H as -> _. tauto.
  - injection H as <- H. destruct (IH m ltac:(tauto) ltac:(tauto) H) as [-> ->]. auto.
Qed.

Lemma scope_under n v : plain n -> matches (tf_scope n) v = true -> exists t, v = n ++ "/" ++ "tf_vars" ++ t.
Proof.
  intros [_ D] H. apply plain_matches in H.
  - destruct H as [t ->]. exists t. unfold tf_scope. now rewrite app_assoc_s.
  - unfold tf_scope. rewrite chars_app, in_app_iff. intros [K|K]; [tauto|]. cbn in K. intuition discriminate.
Qed.

Lemma weights_nodup names model loss s g : inv names model loss s g -> (forall n, In n names -> plain n) ->
  NoDup g -> NoDup (s_weights s).
Proof.
  intros I P D. destruct I as [A B _ _ _ _ G (it & W0 & W1 & W2 & W3 & W4)].
  assert (Ni : NoDup it /\ forall x, In x it -> exists n, In n names /\ x = n ++ "/iter").
  { destruct (s_iterations s).
    - destruct (W1 eq_refl) as (n & Hn & ->). split; [repeat constructor; intros []|]. intros x [<-|[]]. eauto.
    - destruct (W0 eq_refl) as [-> _]. split; [constructor|intros x []]. }
  destruct Ni as [Ni Nx].
  destruct (s_tracked s); [|now rewrite (W3 eq_refl)].
  destruct (W4 eq_refl) as (g1 & g2 & E & ->).
  assert (D1 : NoDup g1). { rewrite E in D. clear -D. induction g1 as [|x g1 IH]; [constructor|]. cbn in D. inversion D; subst. constructor; [|auto]. intro K. apply H1. apply in_or_app. now left. }
  assert (Df : NoDup (filter (matches (s_scope s)) g1)) by now apply NoDup_filter.
  clear -Ni Nx Df P A B. induction it as [|x it IH]; [exact Df|]. inversion Ni; subst. cbn. constructor.
  - intro K. apply in_app_or in K. destruct K as [K|K]; [tauto|]. apply filter_In in K as [_ K].
    rewrite B in K. destruct (scope_under _ _ (P _ A) K) as [t T]. destruct (Nx x (or_introl eq_refl)) as (n & Hn & ->).
    change "/iter" with ("/" ++ "iter") in T. apply under_inj in T; [|apply (P _ Hn)|apply (P _ A)]. destruct T as [_ T]. discriminate.
  - apply IH; [assumption|]. intros y Hy. apply Nx. now right.
Qed.

Lemma weights_under names model loss s g : inv names model loss s g -> (forall n, In n names -> plain n) ->
  forall v, In v (s_weights s) -> exists n, In n names /\ under n v.
Proof.
  intros I P v Hv. destruct I as [A B _ _ _ _ G (it & W0 & W1 & W2 & W3 & W4)].
  assert (Nx : forall x, In x it -> exists n, In n names /\ x = n ++ "/iter").
  { destruct (s_iterations s).
    - destruct (W1 eq_refl) as (n & Hn & ->). intros x [<-|[]]. eauto.
    - destruct (W0 eq_refl) as [-> _]. intros x []. }
  assert (Q : forall x, In x it -> exists n, In n names /\ under n x).
  { intros x Hx. destruct (Nx x Hx) as (n & Hn & ->). exists n. split; [exact Hn|]. now exists "iter". }
  destruct (s_tracked s).
  - destruct (W4 eq_refl) as (g1 & g2 & E & W). rewrite W in Hv. apply in_app_or in Hv. destruct Hv as [Hv|Hv]; [auto|].
    apply filter_In in Hv as [_ K]. rewrite B in K. destruct (scope_under _ _ (P _ A) K) as [t ->].
    exists (s_name s). split; [exact A|]. now exists ("tf_vars" ++ t).
  - rewrite (W3 eq_refl) in Hv. auto.
Qed.

Lemma tracked_weights names model loss s g : inv names model loss s g -> s_tracked s = true ->
  exists n before later, In n names /\ In (n ++ "/iter") g /\ g = (before ++ later)%list /\
    s_weights s = (n ++ "/iter") :: filter (matches (s_name s ++ "/tf_vars")) before.
Proof.
  intros I T. destruct I as [A B _ _ _ F G (it & W0 & W1 & W2 & W3 & W4)].
  destruct (G T) as [i O]. destruct (F i O) as (_ & _ & It). destruct (W1 It) as (n & Hn & ->).
  destruct (W4 T) as (g1 & g2 & E & W). exists n, g1, g2. split; [exact Hn|]. split; [apply W2; now left|].
  split; [exact E|]. rewrite W, B. reflexivity.
Qed.

(** The call that creates the wrapped optimizer *)
Section Created.
Variable model_loss : nat -> option pyval.
Variable glc : nat -> pyval -> res nat.
Variable cvars : nat -> dict -> list string.
Variable uvars : inner -> graph -> list string.

Lemma inner_created s g s' g' r i : create_inner model_loss glc cvars s g = (s', g', r) ->
  s_optimizer s = None -> s_optimizer s' = Some i ->
  r = Ok tt /\ s_layers s' = Some (i_layers i) /\ i_kwargs i = o_kwargs (s_kfac s') /\
  (forall n, s_layers s = Some n -> i_layers i = n) /\
  (s_layers s = None ->
    exists m l, s_model s = Some m /\ (truthy (s_loss s) = Ok true /\ l = s_loss s \/ truthy (s_loss s) = Ok false /\ model_loss m = Some l) /\ glc m l = Ok (i_layers i)).
Proof.
  intros H O O'. unfold create_inner in H. rewrite O in H.
  destruct (match s_layers s with Some _ => (s, Ok tt) | None => register_layers model_loss glc (s_model s) (s_loss s) None s end)
    as [s1 r1] eqn:E1.
  assert (A : s_optimizer s1 = None /\ (r1 = Ok tt -> forall n, s_layers s1 = Some n ->
     (forall k, s_layers s = Some k -> n = k) /\ (s_layers s = None ->
    exists m l, s_model s = Some m /\ (truthy (s_loss s) = Ok true /\ l = s_loss s \/ truthy (s_loss s) = Ok false /\ model_loss m = Some l) /\ glc m l = Ok n))).
  { destruct (s_layers s) as [k|] eqn:L.
    - injection E1 as <- <-. split; [exact O|]. intros _ n N. rewrite L in N. injection N as <-. split; [|discriminate].
      intros k' K. now injection K.
    - unfold register_layers in E1. destruct (truthy (s_loss s)) as [t|] eqn:T; [|injection E1 as <- <-; split; [exact O|discriminate]].
      set (l' := if t : bool then _ else _) in E1.
      destruct (s_model s) as [m|]; [|injection E1 as <- <-; split; [exact O|discriminate]].
      destruct (truthy l') as [[|]|] eqn:T'; try (injection E1 as <- <-; split; [exact O|discriminate]).
      destruct (glc m l') as [n|] eqn:G; injection E1 as <- <-; (split; [exact O|]); [|discriminate].
      intros _ n' N. injection N as <-. split; [discriminate|]. intros _. exists m, l'. split; [reflexivity|]. split; [|exact G].
      unfold l' in *. destruct t; [now left|right]. split; [reflexivity|]. destruct (model_loss m); [reflexivity|congruence]. }
  destruct A as [O1 A].
  destruct r1 as [[]|]; [|injection H as <- <- <-; congruence].
  specialize (A eq_refl).
  destruct (truthy _) as [ad|]; [|injection H as <- <- <-; congruence].
  destruct (ad && _)%bool; [injection H as <- <- <-; congruence|].
  set (s2 := if (ad && _)%bool then _ else _) in H.
  assert (L2 : s_layers s2 = s_layers s1 /\ s_optimizer s2 = None) by (unfold s2; destruct (ad && _)%bool; auto).
  destruct L2 as [L2 O2]. clearbody s2.
  destruct (iterations s2 g) as [s3 g3] eqn:It.
  assert (L3 : s_layers s3 = s_layers s2 /\ s_optimizer s3 = None).
  { unfold iterations in It. destruct (s_iterations s2); injection It as <- <-; auto. }
  destruct L3 as [L3 O3].
  cbn [s_layers with_kfac s_scope] in H.
  destruct (s_layers s3) as [n|] eqn:N; [|injection H as <- <- <-; cbn in O'; congruence].
  destruct (create _ _ g3) as [g5 r5]. destruct r5 as [[]|]; injection H as <- <- <-; [|cbn in O'; congruence].
  cbn in O'. injection O' as <-. cbn [s_layers set_optimizer with_kfac i_layers i_kwargs s_kfac o_kwargs].
  rewrite L2 in L3. symmetry in L3. destruct (A n L3). auto.
Qed.

Lemma perform_created c s g s' g' r i : perform model_loss glc cvars uvars c s g = (s', g', r) ->
  s_optimizer s = None -> s_optimizer s' = Some i ->
  s_layers s' = Some (i_layers i) /\ i_kwargs i = o_kwargs (s_kfac s') /\
  (forall n, s_layers s = Some n -> i_layers i = n) /\
  (s_layers s = None ->
    exists m l, s_model s = Some m /\ (truthy (s_loss s) = Ok true /\ l = s_loss s \/ truthy (s_loss s) = Ok false /\ model_loss m = Some l) /\ glc m l = Ok (i_layers i)).
Proof.
  intros H O O'.
  assert (CT : forall s, call_and_track model_loss glc cvars uvars s g = (s', g', r) -> s_optimizer s = None ->
    s_layers s' = Some (i_layers i) /\ i_kwargs i = o_kwargs (s_kfac s') /\
    (forall n, s_layers s = Some n -> i_layers i = n) /\
    (s_layers s = None ->
    exists m l, s_model s = Some m /\ (truthy (s_loss s) = Ok true /\ l = s_loss s \/ truthy (s_loss s) = Ok false /\ model_loss m = Some l) /\ glc m l = Ok (i_layers i))).
  { clear H O s. intros s H O. unfold call_and_track in H.
    destruct (create_inner model_loss glc cvars s g) as [[s1 g1] r1] eqn:E.
    destruct r1 as [[]|e].
    - destruct (s_optimizer s1) as [j|] eqn:J; [|injection H as <- <- <-; congruence].
      destruct (create _ _ g1) as [g2 r2].
      assert (X : s_optimizer s' = s_optimizer s1 /\ s_layers s' = s_layers s1 /\ s_kfac s' = s_kfac s1).
      { destruct r2; injection H as <- <- <-; auto. unfold track. destruct (s_tracked s1); auto. }
      destruct X as (X1 & X2 & X3). rewrite X1 in O'. rewrite X2, X3.
      exact (proj2 (inner_created _ _ _ _ _ _ E O O')).
    - injection H as <- <- <-. exact (proj2 (inner_created _ _ _ _ _ _ E O O')). }
  destruct c; cbn [perform] in H.
  - unfold set_name in H. rewrite O in H. injection H as <- <- <-. cbn in O'. congruence.
  - destruct (register_layers model_loss glc model loss layer_collection s) as [s1 r1] eqn:R. injection H as <- <- <-.
    apply layers_kept in R as [->|[n ->]]; cbn in O'; congruence.
  - unfold register_batch in H. destruct (register_train_batch _ _ _); [|destruct tb as [| | | | |[|] fd|]]; injection H as <- <- <-; cbn in O'; congruence.
  - exact (proj2 (inner_created _ _ _ _ _ _ H O O')).
  - unfold minimize in H. destruct (minimize_loss (s_kfac s) loss) as [k|]; [|injection H as <- <- <-; congruence].
    exact (CT _ H O).
  - exact (CT _ H O).
Qed.
End Created.
