(** Proofs for C128. *)
From Coq Require Import Reals List Arith Lia String Bool.
From Verif.Base Require Import Py.
From Verif.Registry Require Import Model ScaleSpec.
Import ListNotations.

Definition dim_ok (strict : bool) (p d : nat) : Prop :=
  (p < d -> p = 1) /\ (strict = true -> p <= d).

Lemma go_iff strict start param data l :
  (fix go (is : list nat) : res unit :=
         match is with
         | [] => Ok tt
         | i :: is' =>
             let pd := nth (i - start) param 0 in
             let dd := nth i data 0 in
             if Nat.ltb pd dd then
               (if Nat.eqb pd 1 then go is' else Raise ValueError)
             else if strict && Nat.ltb dd pd then Raise ValueError
             else go is'
         end) l = Ok tt <->
  forall i, In i l -> dim_ok strict (nth (i - start) param 0) (nth i data 0).
Proof.
  induction l as [|i l IH]; [split; [intros _ i []|reflexivity]|].
  cbv zeta. unfold dim_ok in *.
  destruct (Nat.ltb_spec (nth (i - start) param 0) (nth i data 0)).
  - destruct (Nat.eqb_spec (nth (i - start) param 0) 1).
    + rewrite IH. split; intros K j; [intros [<-|J]; [lia|exact (K j J)]|intros J; exact (K j (or_intror J))].
    + split; [discriminate|]. intros K. specialize (K i (or_introl eq_refl)). lia.
  - destruct (Nat.ltb_spec (nth i data 0) (nth (i - start) param 0)); destruct strict; cbn [andb].
    + split; [discriminate|]. intros K. destruct (K i (or_introl eq_refl)) as [_ K']. specialize (K' eq_refl). lia.
    + rewrite IH. split; intros K j; [intros [<-|J]; [split; [lia|discriminate]|exact (K j J)]|intros J; exact (K j (or_intror J))].
    + rewrite IH. split; intros K j; [intros [<-|J]; [split; lia|exact (K j J)]|intros J; exact (K j (or_intror J))].
    + rewrite IH. split; intros K j; [intros [<-|J]; [split; [lia|discriminate]|exact (K j J)]|intros J; exact (K j (or_intror J))].
Qed.

Lemma check_iff strict param data :
  check_broadcast strict param data = Ok tt <->
  List.length param <= List.length data /\ (List.length data = List.length param -> hd 1 param = 1) /\
  forall i, List.length data - List.length param <= i -> 1 <= i -> i < List.length data ->
    dim_ok strict (nth (i - (List.length data - List.length param)) param 0) (nth i data 0).
Proof.
  unfold check_broadcast.
  destruct (Nat.ltb_spec (List.length data) (List.length param)); [split; [discriminate|lia]|].
  cbv zeta.
  destruct (Nat.eqb_spec (List.length data - List.length param) 0) as [E|E]; cbn [andb].
  - destruct (Nat.eqb_spec (hd 1 param) 1) as [F|F]; cbn [negb].
    + rewrite go_iff. split.
      * intros K. split; [lia|]. split; [intros; exact F|]. intros i A B C. apply K. apply in_seq. lia.
      * intros (_ & _ & K) i I. apply in_seq in I. apply K; lia.
    + split; [discriminate|]. intros (_ & K & _). exfalso. apply F, K. lia.
  - rewrite go_iff. split.
    + intros K. split; [lia|]. split; [lia|]. intros i A B C. apply K. apply in_seq. lia.
    + intros (_ & _ & K) i I. apply in_seq in I. apply K; lia.
Qed.

Lemma forall2_nth (R : nat -> nat -> Prop) l1 l2 :
  Forall2 R l1 l2 <->
  List.length l1 = List.length l2 /\ forall i, i < List.length l1 -> R (nth i l1 0) (nth i l2 0).
Proof.
  revert l2; induction l1 as [|x l1 IH]; intros [|y l2]; cbn [List.length].
  - split; [split; [reflexivity|intros; lia]|constructor].
  - split; [intros H; inversion H|intros [H _]; discriminate].
  - split; [intros H; inversion H|intros [H _]; discriminate].
  - split.
    + intros H; inversion H; subst. apply IH in H5. destruct H5 as [L K]. split; [lia|].
      intros [|i] I; cbn [nth]; [assumption|apply K; lia].
    + intros [L K]. constructor; [exact (K 0 ltac:(lia))|]. apply IH. split; [lia|].
      intros i I. exact (K (S i) ltac:(lia)).
Qed.

Lemma nth_from n i (l : list nat) : nth (i + n) l 0 = nth i (skipn n l) 0.
Proof.
  revert l; induction n as [|n IH]; intros l; [now rewrite Nat.add_0_r|].
  rewrite Nat.add_succ_r. destruct l as [|x l]; [now destruct i|]. cbn [nth skipn]. apply IH.
Qed.

Lemma lines_up_iff (R : nat -> nat -> Prop) param data :
  lines_up R param data <->
  List.length param <= List.length data /\ (List.length data = List.length param -> hd 1 param = 1) /\
  forall i, List.length data - List.length param <= i -> 1 <= i -> i < List.length data ->
    R (nth (i - (List.length data - List.length param)) param 0) (nth i data 0).
Proof.
  split.
  - intros (lead & rest & -> & H). rewrite app_length. destruct lead as [|x lead].
    + destruct param as [|p param]; destruct rest as [|d rest]; try (destruct H; fail).
      * cbn [List.length]. split; [lia|]. split; [reflexivity|]. cbn. intros; lia.
      * destruct H as [-> H]. apply forall2_nth in H. destruct H as [L K]. cbn [List.length app hd].
        split; [lia|]. split; [reflexivity|]. intros [|i] A B C; [lia|].
        replace (S i - _) with (S i) by lia. cbn [nth]. apply K. lia.
    + apply forall2_nth in H. destruct H as [L K]. cbn [List.length].
      split; [lia|]. split; [lia|]. intros i A B C.
      rewrite (app_nth2 (x :: lead)); cbn [List.length]; [|lia].
      replace (i - S (List.length lead)) with (i - (S (List.length lead) + List.length rest - List.length param)) by lia.
      apply K. lia.
  - intros (L & H0 & K).
    exists (firstn (List.length data - List.length param) data), (skipn (List.length data - List.length param) data).
    split; [symmetry; apply firstn_skipn|].
    destruct (Nat.eq_dec (List.length data) (List.length param)) as [E|E].
    + replace (List.length data - List.length param) with 0 in * by lia. cbn [firstn skipn].
      specialize (H0 E). destruct param as [|p param]; destruct data as [|d data]; try discriminate E; [exact I|].
      cbn [hd] in H0. split; [exact H0|]. apply forall2_nth. cbn [List.length] in *. split; [lia|].
      intros i J. specialize (K (S i) ltac:(lia) ltac:(lia) ltac:(lia)).
      rewrite Nat.sub_0_r in K. exact K.
    + assert (F : Forall2 R param (skipn (List.length data - List.length param) data)).
      { apply forall2_nth. rewrite skipn_length. split; [lia|]. intros i J.
        specialize (K (i + (List.length data - List.length param)) ltac:(lia) ltac:(lia) ltac:(lia)).
        rewrite Nat.add_sub, nth_from in K. exact K. }
      destruct data as [|d data]; [cbn in *; lia|].
      destruct (List.length (d :: data) - List.length param) as [|n] eqn:N; [cbn [List.length] in *; lia|]. cbn [firstn]. exact F.
Qed.

Lemma lines_up_mono (R S : nat -> nat -> Prop) param data :
  (forall i p, In (nth i data 0) data -> R p (nth i data 0) -> S p (nth i data 0)) ->
  lines_up R param data -> lines_up S param data.
Proof.
  intros RS H. apply lines_up_iff in H. apply lines_up_iff. destruct H as (A & B & C).
  split; [exact A|]. split; [exact B|]. intros i I J K. apply RS; [apply nth_In; exact K|]. apply C; assumption.
Qed.

Lemma check_lines_up strict param data :
  check_broadcast strict param data = Ok tt <-> lines_up (dim_ok strict) param data.
Proof. rewrite check_iff, lines_up_iff. reflexivity. Qed.

Lemma strict_sound param data : check_broadcast true param data = Ok tt -> broadcasts param data.
Proof.
  rewrite check_lines_up. apply lines_up_mono. intros i p _ [A B]. specialize (B eq_refl).
  destruct (Nat.eq_dec p (nth i data 0)); [now left|right; apply A; lia].
Qed.
Lemma loose_sound param data :
  check_broadcast false param data = Ok tt -> lines_up (fun p d => p = d \/ p = 1 \/ d < p) param data.
Proof.
  rewrite check_lines_up. apply lines_up_mono. intros i p _ [A _]. lia.
Qed.
Lemma complete strict param data :
  Forall (fun d => 0 < d) data -> broadcasts param data -> check_broadcast strict param data = Ok tt.
Proof.
  intros P. rewrite check_lines_up. apply lines_up_mono. intros i p I H.
  assert (0 < nth i data 0) by (rewrite Forall_forall in P; exact (P _ I)).
  split; intros; lia.
Qed.
Lemma go_raises strict start param data l e :
  (fix go (is : list nat) : res unit :=
         match is with
         | [] => Ok tt
         | i :: is' =>
             let pd := nth (i - start) param 0 in
             let dd := nth i data 0 in
             if Nat.ltb pd dd then
               (if Nat.eqb pd 1 then go is' else Raise ValueError)
             else if strict && Nat.ltb dd pd then Raise ValueError
             else go is'
         end) l = Raise e -> e = ValueError.
Proof.
  induction l as [|i l IH]; [discriminate|]. cbv zeta.
  destruct (Nat.ltb _ _); [destruct (Nat.eqb _ _)|destruct (strict && _)];
    try exact IH; intros H; injection H as <-; reflexivity.
Qed.
Lemma check_raises strict param data e : check_broadcast strict param data = Raise e -> e = ValueError.
Proof.
  unfold check_broadcast. destruct (Nat.ltb _ _); [intros H; injection H as <-; reflexivity|]. cbv zeta.
  destruct (Nat.eqb _ 0 && _); [intros H; injection H as <-; reflexivity|]. apply go_raises.
Qed.
