(** The order of the thunks. *)
From Coq Require Import String QArith Arith Bool List Reals Lia.
From Verif.Base Require Import Py.
From Verif.Est Require Import Model Spec.
Import ListNotations.
Open Scope list_scope.

Lemma mem_in x l : mem x l = true <-> In x l.
Proof.
  unfold mem. rewrite existsb_exists. split.
  - intros (y & Hy & E). apply Nat.eqb_eq in E. now subst.
  - intro H. exists x. split; [exact H|apply Nat.eqb_refl].
Qed.

Lemma mem_false x l : mem x l = false <-> ~ In x l.
Proof. rewrite <- mem_in. destruct (mem x l); split; intro H; congruence || now elim H. Qed.

(** The variables that exist after the thunks [pre] *)
Definition covers (pre : list thunk) (s : tstate) : Prop :=
  (forall i, In i (ts_cov s) <-> In (CovVar i) pre) /\ (forall i, In i (ts_inv s) <-> In (InvVar i) pre).

Lemma covers_step fs pre s t s' ms : covers pre s -> run_thunk fs t s = Ok (s', ms) -> covers (pre ++ [t]) s'.
Proof.
  intros [C I] H. destruct t as [i|i|i|i]; cbn in H.
  - destruct (mem i (ts_cov s)); inversion H; subst; clear H. split; intro j; cbn; rewrite in_app_iff; cbn.
    + rewrite C. split; [intros [<-|K]; [now right; left|now left]|].
      intros [K|[K|[]]]; [now right|left; congruence].
    + rewrite I. split; [now left|]. intros [K|[K|[]]]; [exact K|discriminate].
  - destruct (mem i (ts_cov s)); inversion H; subst; clear H.
    split; intro j; rewrite in_app_iff; cbn; [rewrite C|rewrite I];
      (split; [now left|]; intros [K|[K|[]]]; [exact K|discriminate]).
  - destruct (mem i (ts_inv s) && has_inverses (nth i fs no_factor)); inversion H; subst; clear H.
    split; intro j; cbn; rewrite in_app_iff; cbn.
    + rewrite C. split; [now left|]. intros [K|[K|[]]]; [exact K|discriminate].
    + rewrite I. split; [intros [<-|K]; [now right; left|now left]|].
      intros [K|[K|[]]]; [now right|left; congruence].
  - assert (s' = s).
    { repeat match type of H with context [if ?b then _ else _] => destruct b end; now inversion H. }
    subst s'. split; intro j; rewrite in_app_iff; cbn; [rewrite C|rewrite I];
      (split; [now left|]; intros [K|[K|[]]]; [exact K|discriminate]).
Qed.

Lemma meant_app fs a b : meant fs (a ++ b) = meant fs a ++ meant fs b.
Proof. unfold meant. now rewrite map_app, concat_app. Qed.

Lemma has_inverses_spec f : has_inverses f = true <-> tf_inverses f <> [].
Proof. unfold has_inverses. destruct (tf_inverses f); split; congruence. Qed.

Lemma nodup_not_in {A} (a b : list A) x : NoDup (a ++ x :: b) -> ~ In x a.
Proof. intro H. apply NoDup_remove_2 in H. intro K. apply H. apply in_or_app. now left. Qed.

Lemma runs fs ts : documented_order ts -> damping_order fs ts ->
  exists s, run_thunks fs ts nothing_made = Ok (s, meant fs ts).
Proof.
  intros [D N] R.
  enough (forall post pre s, ts = pre ++ post -> covers pre s -> exists s', run_thunks fs post s = Ok (s', meant fs post)).
  { destruct (H ts [] nothing_made eq_refl) as [s Hs]; [|eauto]. split; intro i; reflexivity. }
  induction post as [|t post IH]; intros pre s E C; [eexists; reflexivity|].
  cbn [run_thunks].
  assert (G : exists s', run_thunk fs t s = Ok (s', meant fs [t])).
  { destruct C as [C I]. destruct t as [i|i|i|i]; cbn.
    - destruct (mem i (ts_cov s)) eqn:M; [|eexists; reflexivity]. exfalso. apply mem_in, C in M.
      rewrite E, filter_app in N. cbn in N. apply (nodup_not_in _ _ _ N). apply filter_In. now split.
    - destruct (D i) as (K & _ & _). assert (M : mem i (ts_cov s) = true) by (apply mem_in, C, (K pre post E)).
      rewrite M. eexists; reflexivity.
    - destruct (mem i (ts_inv s)) eqn:M; [|eexists; reflexivity]. exfalso. apply mem_in, I in M.
      rewrite E, filter_app in N. cbn in N. apply (nodup_not_in _ _ _ N). apply filter_In. now split.
    - destruct (D i) as (_ & K1 & K2).
      assert (M1 : mem i (ts_cov s) = true) by (apply mem_in, C, (K1 pre post E)).
      assert (M2 : mem i (ts_inv s) = true) by (apply mem_in, I, (K2 pre post E)).
      destruct (has_inverses (nth i fs no_factor)) eqn:Hi.
      + assert (M3 : forallb (fun j => mem j (ts_cov s)) (tf_reads (nth i fs no_factor)) = true).
        { apply forallb_forall. intros j Hj. apply mem_in, C. apply has_inverses_spec in Hi.
          exact (R i j Hi Hj pre post E). }
        rewrite M3, M1, M2. eexists; reflexivity.
      + unfold has_inverses in Hi. destruct (tf_inverses (nth i fs no_factor)); [eexists; reflexivity|discriminate]. }
  destruct G as [s1 G]. rewrite G. cbn [bind fst snd].
  destruct (IH (pre ++ [t]) s1) as [s2 H2].
  - now rewrite <- app_assoc.
  - exact (covers_step _ _ _ _ _ _ C G).
  - rewrite H2. cbn [bind fst snd]. eexists. f_equal. f_equal. exact (eq_sym (meant_app fs [t] post)).
Qed.

Lemma runs_only fs ts : forall r, run_thunks fs ts nothing_made = Ok r -> damping_order fs ts.
Proof.
  enough (forall post pre s r, covers pre s -> run_thunks fs post s = Ok r ->
     forall i j, tf_inverses (nth i fs no_factor) <> [] -> In j (tf_reads (nth i fs no_factor)) ->
     forall a b, post = a ++ InvUpdate i :: b -> In (CovVar j) (pre ++ a)).
  { intros r Hr i j Hi Hj a b E. apply (H ts [] nothing_made r) with (i := i) (b := b); try assumption.
    split; intro; reflexivity. }
  induction post as [|t post IH]; intros pre s r C H i j Hi Hj a b E; [destruct a; discriminate|].
  cbn [run_thunks] in H. destruct (run_thunk fs t s) as [[s1 m1]|e] eqn:G; [|discriminate]. cbn [bind fst snd] in H.
  destruct (run_thunks fs post s1) as [q|e] eqn:Q; [|discriminate].
  destruct a as [|t' a].
  - cbn in E. inversion E; subst. rewrite app_nil_r. cbn in G.
    apply has_inverses_spec in Hi. rewrite Hi in G.
    destruct (forallb _ (tf_reads _)) eqn:F; [|discriminate].
    rewrite forallb_forall in F. apply C. apply mem_in. now apply F.
  - cbn in E. inversion E; subst.
    rewrite (app_assoc pre [t'] a : pre ++ t' :: a = (pre ++ [t']) ++ a).
    eapply (IH (pre ++ [t']) s1); try eassumption; [|reflexivity].
    exact (covers_step _ _ _ _ _ _ C G).
Qed.

(** The order in which the thunks are returned *)
Lemma before_app_l a b l m : before a b l -> (In a l \/ ~ In b m) -> before a b (l ++ m).
Proof.
  intros H K pre post E.
  destruct (Nat.lt_ge_cases (length pre) (length l)) as [L|L].
  - apply (H pre (firstn (length l - length pre - 1) post)).
    assert (F : firstn (length l) (l ++ m) = firstn (length l) (pre ++ b :: post)) by now rewrite E.
    rewrite firstn_app, Nat.sub_diag, firstn_O, app_nil_r, firstn_all in F.
    rewrite F at 1. rewrite firstn_app, firstn_all2 by lia.
    destruct (length l - length pre)%nat as [|k] eqn:Ek; [lia|]. cbn. now rewrite Nat.sub_0_r.
  - assert (F : firstn (length l) (l ++ m) = firstn (length l) (pre ++ b :: post)) by now rewrite E.
    rewrite firstn_app, Nat.sub_diag, firstn_O, app_nil_r, firstn_all in F.
    rewrite firstn_app in F. replace (length l - length pre)%nat with 0%nat in F by lia.
    rewrite firstn_O, app_nil_r in F.
    destruct K as [K|K].
    + rewrite F in K. now apply (firstn_skipn (length l) pre) in K || (rewrite <- (firstn_skipn (length l) pre); apply in_or_app; now left).
    + exfalso. apply K. assert (S : skipn (length l) (l ++ m) = skipn (length l) (pre ++ b :: post)) by now rewrite E.
      rewrite skipn_app, Nat.sub_diag, skipn_O, skipn_all in S. cbn in S.
      rewrite skipn_app in S. replace (length l - length pre)%nat with 0%nat in S by lia. rewrite skipn_O in S.
      rewrite S. apply in_or_app. right. now left.
Qed.

Lemma before_absent a b l : ~ In b l -> before a b l.
Proof. intros H pre post ->. exfalso. apply H. apply in_or_app. right. now left. Qed.

Definition returned_order (n : nat) : list thunk :=
  map CovVar (seq 0 n) ++ map CovUpdate (seq 0 n) ++ map InvVar (seq 0 n) ++ map InvUpdate (seq 0 n).

Lemma in_map_seq (f : nat -> thunk) n i : (forall a b, f a = f b -> a = b) -> (In (f i) (map f (seq 0 n)) <-> (i < n)%nat).
Proof.
  intro J. rewrite in_map_iff. split.
  - intros (k & E & Hk). apply J in E. subst. apply in_seq in Hk. lia.
  - intro H. exists i. split; [reflexivity|]. apply in_seq. lia.
Qed.

Lemma not_in_map (f g : nat -> thunk) n i : (forall a b, f a <> g b) -> ~ In (g i) (map f (seq 0 n)).
Proof. intros D H. apply in_map_iff in H. destruct H as (k & E & _). exact (D _ _ E). Qed.

Lemma nodup_map (f : nat -> thunk) l : (forall a b, f a = f b -> a = b) -> NoDup l -> NoDup (map f l).
Proof.
  intros J. induction 1 as [|x l N _ IH]; cbn; constructor; [|exact IH].
  intro H. apply in_map_iff in H. destruct H as (k & E & Hk). apply J in E. now subst.
Qed.

Lemma filter_all {A} (p : A -> bool) l : (forall x, In x l -> p x = true) -> filter p l = l.
Proof. induction l as [|a l IH]; intro H; cbn; [reflexivity|]. rewrite (H a (or_introl eq_refl)). f_equal. apply IH. intros x Hx. apply H. now right. Qed.
Lemma filter_none {A} (p : A -> bool) l : (forall x, In x l -> p x = false) -> filter p l = [].
Proof. induction l as [|a l IH]; intro H; cbn; [reflexivity|]. rewrite (H a (or_introl eq_refl)). apply IH. intros x Hx. apply H. now right. Qed.

Ltac absent := first [apply not_in_map; intros; discriminate].

Lemma returned_documented n : documented_order (returned_order n).
Proof.
  unfold returned_order. split.
  - intro i. assert (K : (i < n)%nat \/ ~ (i < n)%nat) by lia.
    assert (JC : forall a b, CovVar a = CovVar b -> a = b) by (intros; congruence).
    assert (JU : forall a b, CovUpdate a = CovUpdate b -> a = b) by (intros; congruence).
    assert (JI : forall a b, InvVar a = InvVar b -> a = b) by (intros; congruence).
    assert (JJ : forall a b, InvUpdate a = InvUpdate b -> a = b) by (intros; congruence).
    repeat split.
    + apply before_app_l; [apply before_absent; absent|].
      destruct K as [K|K]; [left; now apply in_map_seq|right]. rewrite !in_app_iff. intros [H|[H|H]].
      * apply in_map_seq in H; [contradiction|exact JU].
      * revert H. absent.
      * revert H. absent.
    + apply before_app_l; [apply before_absent; absent|].
      destruct K as [K|K]; [left; now apply in_map_seq|right]. rewrite !in_app_iff. intros [H|[H|H]].
      * revert H. absent.
      * revert H. absent.
      * apply in_map_seq in H; [contradiction|exact JJ].
    + rewrite !app_assoc. apply before_app_l.
      * apply before_absent. rewrite !in_app_iff. intros [[H|H]|H]; revert H; absent.
      * destruct K as [K|K]; [left|right].
        -- rewrite !in_app_iff. right. now apply in_map_seq.
        -- intro H. apply in_map_seq in H; [contradiction|exact JJ].
  - rewrite !filter_app.
    rewrite (filter_all _ (map CovVar _)) by (intros x H; apply in_map_iff in H; now destruct H as (k & <- & _)).
    rewrite (filter_none _ (map CovUpdate _)) by (intros x H; apply in_map_iff in H; now destruct H as (k & <- & _)).
    rewrite (filter_all _ (map InvVar _)) by (intros x H; apply in_map_iff in H; now destruct H as (k & <- & _)).
    rewrite (filter_none _ (map InvUpdate _)) by (intros x H; apply in_map_iff in H; now destruct H as (k & <- & _)).
    rewrite app_nil_r. cbn [app].
    assert (N : forall l1 l2, NoDup l1 -> NoDup l2 -> NoDup (map CovVar l1 ++ map InvVar l2)).
    { clear. induction l1 as [|x l1 IH]; intros l2 H1 H2; cbn.
      - apply nodup_map; [intros; congruence|exact H2].
      - inversion H1; subst. constructor; [|now apply IH]. rewrite in_app_iff. intros [H|H].
        + apply in_map_iff in H. destruct H as (k & E & Hk). inversion E; subst. contradiction.
        + apply in_map_iff in H. destruct H as (k & E & _). discriminate. }
    apply N; apply seq_NoDup.
Qed.

Lemma returned_damping fs :
  (forall i j, In j (tf_reads (nth i fs no_factor)) -> (j < length fs)%nat) ->
  damping_order fs (returned_order (length fs)).
Proof.
  intros H i j _ Hj. apply H in Hj. unfold returned_order. apply before_app_l.
  - apply before_absent. apply not_in_map. intros; discriminate.
  - left. apply in_map_seq; [intros; congruence|exact Hj].
Qed.
