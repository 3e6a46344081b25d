(** General list, counting and modular-arithmetic lemmas used by several areas. *)
From Coq Require Import List Arith ZArith Lia Bool Permutation.
From Verif.Base Require Import Py.
Import ListNotations.

(** Number of elements of a list satisfying a boolean test. *)
Definition countb {A} (p : A -> bool) (l : list A) : nat := length (filter p l).

Lemma countb_app {A} (p : A -> bool) l m : countb p (l ++ m) = countb p l + countb p m.
Proof. unfold countb. rewrite filter_app, app_length. reflexivity. Qed.

Lemma countb_perm {A} (p : A -> bool) l m : Permutation l m -> countb p l = countb p m.
Proof.
  unfold countb; induction 1; simpl; auto.
  - destruct (p x); simpl; congruence.
  - destruct (p x), (p y); simpl; auto.
  - congruence.
Qed.

Lemma countb_ext {A} (p q : A -> bool) l :
  (forall x, In x l -> p x = q x) -> countb p l = countb q l.
Proof.
  unfold countb; induction l as [|x l IH]; simpl; intros H; auto.
  rewrite (H x) by auto. destruct (q x); simpl; rewrite IH; auto.
Qed.

Lemma countb_map {A B} (f : A -> B) (p : B -> bool) l :
  countb p (map f l) = countb (fun x => p (f x)) l.
Proof.
  unfold countb; induction l as [|x l IH]; simpl; auto.
  destruct (p (f x)); simpl; congruence.
Qed.

Lemma countb_le {A} (p : A -> bool) l : countb p l <= length l.
Proof. unfold countb; induction l as [|x l IH]; simpl; [lia|]. destruct (p x); simpl; lia. Qed.

Lemma length_enumerate_from {A} (l : list A) i : length (enumerate_from i l) = length l.
Proof. revert i; induction l; simpl; auto. Qed.

Lemma nth_error_enumerate_from {A} (l : list A) i j :
  nth_error (enumerate_from i l) j =
  match nth_error l j with Some a => Some (i + j, a) | None => None end.
Proof.
  revert i j; induction l as [|a l IH]; intros i [|j]; simpl; auto.
  - rewrite Nat.add_0_r; auto.
  - rewrite IH. destruct (nth_error l j); auto. f_equal; f_equal; lia.
Qed.

Lemma nth_error_enumerate {A} (l : list A) j :
  nth_error (enumerate l) j =
  match nth_error l j with Some a => Some (j, a) | None => None end.
Proof. apply nth_error_enumerate_from. Qed.

Lemma map_fst_enumerate_from {A} (l : list A) i :
  map fst (enumerate_from i l) = seq i (length l).
Proof. revert i; induction l; simpl; intros; f_equal; auto. Qed.

Lemma length_zip {A B} (l : list A) (m : list B) :
  length (zip l m) = Nat.min (length l) (length m).
Proof. revert m; induction l; destruct m; simpl; auto. Qed.

Lemma nth_error_zip {A B} (l : list A) (m : list B) j :
  nth_error (zip l m) j =
  match nth_error l j, nth_error m j with
  | Some a, Some b => Some (a, b)
  | _, _ => None
  end.
Proof.
  revert m j; induction l as [|a l IH]; intros [|b m] [|j]; simpl; auto.
  destruct (nth_error l j); auto.
Qed.

(** [zip(l, cycle(d))] pairs position [j] with [d] at [j mod len(d)]. *)
Lemma nth_error_zip_cycle_gen {A B} (full : list B) (l : list A) k j :
  full <> [] -> k <= length full ->
  nth_error (zip_cycle full (skipn k full) l) j =
  match nth_error l j, nth_error full ((k + j) mod (length full)) with
  | Some a, Some b => Some (a, b)
  | _, _ => None
  end.
Proof.
  intros Hne; revert k j; induction l as [|a l IH]; intros k j Hk.
  - destruct j; reflexivity.
  - assert (Hl : 0 < length full) by (destruct full; [congruence|simpl; lia]).
    cbn [zip_cycle].
    destruct (Nat.eq_dec k (length full)) as [->|Hk'].
    + rewrite skipn_all. destruct full as [|b full']; [congruence|].
      set (full := b :: full') in *.
      destruct j as [|j]; cbn [nth_error].
      * rewrite Nat.add_0_r, Nat.mod_same by lia. reflexivity.
      * change full' with (skipn 1 full). rewrite IH by lia.
        destruct (nth_error l j); auto.
        replace (length full + S j) with (1 + j + 1 * length full) by lia.
        rewrite Nat.mod_add by lia. reflexivity.
    + assert (Hlt : k < length full) by lia.
      destruct (skipn k full) as [|b cur] eqn:E.
      { apply (f_equal (@length B)) in E. rewrite skipn_length in E. simpl in E. lia. }
      assert (Hcur : cur = skipn (S k) full).
      { clear - E. revert k E; induction full as [|x full IH]; intros [|k] E; simpl in *.
        - discriminate.
        - discriminate.
        - congruence.
        - apply IH; auto. }
      assert (Hb : nth_error full k = Some b).
      { clear - E. revert k E; induction full as [|x full IH]; intros [|k] E; simpl in *;
        try discriminate; try congruence. apply IH; auto. }
      destruct j as [|j]; cbn [nth_error].
      * rewrite Nat.add_0_r, Nat.mod_small, Hb by lia. reflexivity.
      * rewrite Hcur, IH by lia. replace (S k + j) with (k + S j) by lia. reflexivity.
Qed.

Lemma nth_error_zip_cycle {A B} (full : list B) (l : list A) j :
  full <> [] ->
  nth_error (zip_cycle full full l) j =
  match nth_error l j, nth_error full (j mod (length full)) with
  | Some a, Some b => Some (a, b)
  | _, _ => None
  end.
Proof.
  intros H. change full with (skipn 0 full) at 2.
  rewrite nth_error_zip_cycle_gen by (auto; lia). reflexivity.
Qed.

Lemma length_zip_cycle_gen {A B} (full cur : list B) (l : list A) :
  full <> [] -> length (zip_cycle full cur l) = length l.
Proof.
  intros Hne; revert cur; induction l as [|a l IH]; intros cur; simpl; auto.
  destruct cur; simpl; [destruct full as [|b f]; [congruence|]|]; simpl; rewrite IH; auto.
Qed.

Lemma map_fst_zip_cycle {A B} (full cur : list B) (l : list A) :
  full <> [] -> map fst (zip_cycle full cur l) = l.
Proof.
  intros Hne; revert cur; induction l as [|a l IH]; intros cur; simpl; auto.
  destruct cur; simpl; [destruct full as [|b f]; [congruence|]|]; simpl; rewrite IH; auto.
Qed.

(** ** Counting residues *)

(** #{m < x : m mod n = j}. *)
Lemma count_residue_prefix n j x :
  j < n -> countb (fun m => m mod n =? j) (seq 0 x) = (x + (n - 1 - j)) / n.
Proof.
  intros Hj; induction x as [|x IH].
  - simpl. rewrite Nat.div_small; [reflexivity|lia].
  - rewrite seq_S, countb_app, IH. cbn [countb plus]. unfold countb; simpl.
    pose proof (Nat.div_mod x n ltac:(lia)) as Hx.
    pose proof (Nat.mod_upper_bound x n ltac:(lia)) as Hr.
    set (q := x / n) in *. set (r := x mod n) in *.
    destruct (Nat.eqb_spec r j) as [E|E]; simpl.
    + replace ((x + (n - 1 - j)) / n) with q.
      2:{ apply Nat.div_unique with (r := n - 1); lia. }
      apply Nat.div_unique with (r := 0); [lia|]. nia.
    + destruct (Nat.lt_ge_cases r j) as [Hlt|Hge].
      * replace ((x + (n - 1 - j)) / n) with q
          by (apply Nat.div_unique with (r := r + (n - 1 - j)); lia).
        rewrite Nat.add_0_r.
        apply Nat.div_unique with (r := r + 1 + (n - 1 - j)); lia.
      * replace ((x + (n - 1 - j)) / n) with (q + 1)
          by (apply Nat.div_unique with (r := r - 1 - j); nia).
        rewrite Nat.add_0_r.
        apply Nat.div_unique with (r := r - j); nia.
Qed.

Lemma seq_split lo len : seq 0 (lo + len) = seq 0 lo ++ seq lo len.
Proof. rewrite seq_app. reflexivity. Qed.

Lemma div_window a len n : 0 < n ->
  len / n <= (a + len) / n - a / n <= len / n + 1.
Proof.
  intros Hn.
  pose proof (Nat.div_mod a n ltac:(lia)). pose proof (Nat.mod_upper_bound a n ltac:(lia)).
  pose proof (Nat.div_mod len n ltac:(lia)). pose proof (Nat.mod_upper_bound len n ltac:(lia)).
  pose proof (Nat.div_mod (a + len) n ltac:(lia)).
  pose proof (Nat.mod_upper_bound (a + len) n ltac:(lia)).
  set (qa := a / n) in *. set (ql := len / n) in *. set (q := (a + len) / n) in *.
  set (ra := a mod n) in *. set (rl := len mod n) in *. set (r := (a + len) mod n) in *.
  assert (n * q + r = n * (qa + ql) + (ra + rl)) by nia.
  assert (q >= qa + ql) by nia.
  assert (q <= qa + ql + 1) by nia.
  lia.
Qed.

(** In a window of [len] consecutive numbers each residue class occurs
    [len/n] or [len/n + 1] times. *)
Lemma count_residue_window n j lo len :
  j < n ->
  len / n <= countb (fun m => m mod n =? j) (seq lo len) <= len / n + 1.
Proof.
  intros Hj.
  assert (E : countb (fun m => m mod n =? j) (seq lo len)
              = (lo + (n - 1 - j) + len) / n - (lo + (n - 1 - j)) / n).
  { pose proof (count_residue_prefix n j (lo + len) Hj) as H1.
    pose proof (count_residue_prefix n j lo Hj) as H2.
    rewrite seq_split, countb_app in H1.
    replace (lo + len + (n - 1 - j)) with (lo + (n - 1 - j) + len) in H1 by lia. lia. }
  rewrite E. apply div_window. lia.
Qed.

Lemma count_residue_full n j lo :
  j < n -> countb (fun m => m mod n =? j) (seq lo n) = 1.
Proof.
  intros Hj.
  pose proof (count_residue_prefix n j (lo + n) Hj) as H1.
  pose proof (count_residue_prefix n j lo Hj) as H2.
  rewrite seq_split, countb_app in H1.
  replace (lo + n + (n - 1 - j)) with (lo + (n - 1 - j) + 1 * n) in H1 by lia.
  rewrite Nat.div_add in H1 by lia. lia.
Qed.

Lemma nth_error_list_eq {A} (l m : list A) :
  (forall i, nth_error l i = nth_error m i) -> l = m.
Proof.
  revert m; induction l as [|a l IH]; intros [|b m] H; auto.
  - specialize (H 0); discriminate.
  - specialize (H 0); discriminate.
  - pose proof (H 0) as H0. injection H0 as ->. f_equal. apply IH. intros i. apply (H (S i)).
Qed.
