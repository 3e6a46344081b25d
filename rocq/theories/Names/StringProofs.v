(** Splitting names back into the words they were built from. *)
From Coq Require Import String Ascii List Arith Bool Lia DecimalString Decimal DecimalNat DecimalFacts.
From Verif.Base Require Import Py.
From Verif.Names Require Import Model Spec.
Import ListNotations.
Open Scope string_scope.
Open Scope nat_scope.
Open Scope list_scope.

Lemma sapp_assoc a b c : ((a ++ b) ++ c = a ++ (b ++ c))%string.
Proof. induction a; simpl; congruence. Qed.
Lemma sapp_nil a : (a ++ "")%string = a.
Proof. induction a; simpl; congruence. Qed.
Lemma sapp_inj a b c : (a ++ b = a ++ c)%string -> b = c.
Proof. induction a; simpl; auto. intros H; injection H; auto. Qed.
Lemma sapp_inj_r c a b : (a ++ c = b ++ c)%string -> a = b.
Proof.
  assert (L : forall x y, String.length (x ++ y)%string = String.length x + String.length y)
    by (induction x; simpl; auto).
  revert b; induction a as [|x a IH]; intros [|y b] H; simpl in *; auto.
  - apply (f_equal String.length) in H. simpl in H. rewrite L in H. lia.
  - apply (f_equal String.length) in H. simpl in H. rewrite L in H. lia.
  - injection H as -> H. f_equal; auto.
Qed.

Lemma free_app c a b : free_of c (a ++ b)%string <-> free_of c a /\ free_of c b.
Proof. induction a; simpl; intuition. Qed.

(** A common string decides which of two beginnings is the longer one. *)
Lemma begins_total a b x y : (a ++ x = b ++ y)%string -> begins a b \/ begins b a.
Proof.
  revert b; induction a as [|c a IH]; intros [|d b] H; simpl in *.
  - left; exists ""; reflexivity.
  - left; exists (String d b); reflexivity.
  - right; exists (String c a); reflexivity.
  - injection H as -> H. destruct (IH _ H) as [[r ->]|[r ->]]; [left|right]; exists r; reflexivity.
Qed.

(** Fields without the separator are split off from the left ... *)
Lemma split_left c a b x y :
  free_of c a -> free_of c b ->
  (a ++ String c x = b ++ String c y)%string -> a = b /\ x = y.
Proof.
  revert b; induction a as [|d a IH]; intros [|e b] Fa Fb H; simpl in *.
  - injection H; auto.
  - injection H as -> H. tauto.
  - injection H as -> H. tauto.
  - injection H as -> H. destruct (IH b) as [-> ->]; tauto.
Qed.
(** ... and from the right. *)
Lemma split_right c a b x y :
  free_of c x -> free_of c y ->
  (a ++ String c x = b ++ String c y)%string -> a = b /\ x = y.
Proof.
  revert b; induction a as [|d a IH]; intros [|e b] Fa Fb H; simpl in *.
  - injection H; auto.
  - injection H as <- H. subst x. apply free_app in Fa. simpl in Fa. tauto.
  - injection H as -> H. subst y. apply free_app in Fb. simpl in Fb. tauto.
  - injection H as -> H. destruct (IH b) as [-> ->]; auto.
Qed.

(** The same with the separator written after the last field. *)
Lemma split_right_end c a b x y :
  free_of c x -> free_of c y ->
  ((a ++ String c x) ++ String c "" = (b ++ String c y) ++ String c "")%string -> a = b /\ x = y.
Proof. intros Fx Fy H. apply sapp_inj_r in H. eapply split_right; eauto. Qed.

(* ------------------------------------------------------------------------ *)
(** * Printed numbers *)

Definition digit (c : ascii) : Prop := 48 <= nat_of_ascii c <= 57.
Fixpoint digits (s : string) : Prop :=
  match s with EmptyString => True | String c s' => digit c /\ digits s' end.

Lemma uint_digits u : digits (NilEmpty.string_of_uint u).
Proof. induction u; simpl; auto; split; auto; unfold digit; cbv -[not]; lia. Qed.
Lemma int_digits n : digits (str_int n).
Proof. apply uint_digits. Qed.

Lemma digits_free c s : digits s -> ~ digit c -> free_of c s.
Proof. induction s; simpl; auto. intros [D E] N. split; auto. intros ->. auto. Qed.

Lemma int_inj n m : str_int n = str_int m -> n = m.
Proof.
  unfold str_int. intros H.
  apply (f_equal NilEmpty.uint_of_string) in H. rewrite !NilEmpty.usu in H.
  injection H as H. apply Unsigned.to_uint_inj; auto.
Qed.
Lemma to_uint_nonnil n : Nat.to_uint n <> Decimal.Nil.
Proof.
  intros H. destruct n as [|n].
  - discriminate.
  - assert (E : Nat.of_uint (Nat.to_uint (S n)) = S n) by apply Unsigned.of_to.
    rewrite H in E. discriminate.
Qed.
Lemma int_nonempty n : str_int n <> "".
Proof.
  unfold str_int. pose proof (to_uint_nonnil n). destruct (Nat.to_uint n); simpl; congruence.
Qed.

(** A printed list of numbers. *)
Definition ints_str (l : list nat) : string := String.concat "-" (map str_int l).
Lemma ints_param l : forallb is_int (map PInt l) = true /\ map str_of (map PInt l) = map str_int l.
Proof. induction l; simpl; intuition congruence. Qed.

Lemma ints_cons n m l : ints_str (n :: m :: l) = (str_int n ++ String "-" (ints_str (m :: l)))%string.
Proof. reflexivity. Qed.

Lemma ints_inj l m : ints_str l = ints_str m -> l = m.
Proof.
  assert (D : ~ digit "-") by (unfold digit; cbv -[not]; lia).
  assert (F : forall n, free_of "-" (str_int n)) by (intro; apply digits_free; auto using int_digits).
  revert m; induction l as [|n l IH]; intros m H.
  - destruct m as [|a [|b m]]; auto; exfalso.
    + symmetry in H. exact (int_nonempty _ H).
    + rewrite ints_cons in H. cbn in H. destruct (str_int a); discriminate.
  - destruct m as [|a m].
    { destruct l as [|b l]; [exact (False_rect _ (int_nonempty _ H))|].
      rewrite ints_cons in H. cbn in H. destruct (str_int n); discriminate. }
    destruct l as [|b l], m as [|c m].
    + cbn in H. apply int_inj in H. congruence.
    + rewrite ints_cons in H. change (ints_str [n]) with (str_int n) in H.
      specialize (F n). rewrite H in F. apply free_app in F. simpl in F. tauto.
    + rewrite ints_cons in H. change (ints_str [a]) with (str_int a) in H.
      specialize (F a). rewrite <- H in F. apply free_app in F. simpl in F. tauto.
    + rewrite !ints_cons in H. apply split_left in H; auto. destruct H as [H1 H2].
      apply int_inj in H1. subst a. f_equal. apply IH; auto.
Qed.

Lemma ints_free c l : ~ digit c -> c <> "-"%char -> free_of c (ints_str l).
Proof.
  intros D N. induction l as [|n [|m l] IH].
  - exact I.
  - change (free_of c (str_int n)). apply digits_free; auto using int_digits.
  - rewrite ints_cons. apply free_app. split; [apply digits_free; auto using int_digits|].
    split; auto.
Qed.
Lemma ints_start l : l <> [] -> exists c s, ints_str l = String c s /\ digit c.
Proof.
  destruct l as [|n l]; [congruence|]. intros _.
  pose proof (int_nonempty n). pose proof (int_digits n).
  destruct l as [|m l].
  - change (ints_str [n]) with (str_int n). destruct (str_int n) as [|c s]; [congruence|].
    exists c, s. simpl in *. split; [reflexivity|tauto].
  - rewrite ints_cons. destruct (str_int n) as [|c s]; [congruence|].
    eexists c, _. simpl in *. split; [reflexivity|tauto].
Qed.
Lemma int_start n : exists c s, str_int n = String c s /\ digit c.
Proof. apply (ints_start [n]). discriminate. Qed.

Lemma digit_not_letter c : digit c -> letter c -> False.
Proof. unfold digit, letter. lia. Qed.

(* ------------------------------------------------------------------------ *)
(** * Words of tensors *)

(** [text w l]: words, each followed by one underscore or by two. *)
Fixpoint text (w : world) (l : list (nat * bool)) : string :=
  match l with
  | [] => ""
  | (t, two) :: l' => (word w t ++ "_" ++ (if two then "_" else "") ++ text w l')%string
  end.

(** A string that cannot be taken for a further word. *)
Definition stop (s : string) : Prop :=
  match s with EmptyString => True | String c _ => ~ letter c /\ c <> "_"%char end.

Lemma first_letter w t x : starts_with_letter (word w t) ->
  exists c r, (word w t ++ x)%string = String c r /\ letter c.
Proof. intros (c & r & -> & L). exists c, (r ++ x)%string. auto. Qed.

Lemma letter_under : ~ letter "_".
Proof. unfold letter; cbv -[not]; lia. Qed.

Lemma text_inj w ts l l' r r' :
  tell_apart w ts -> incl (map fst l) ts -> incl (map fst l') ts -> stop r -> stop r' ->
  (text w l ++ r = text w l' ++ r')%string -> l = l' /\ r = r'.
Proof.
  intros [T1 T2]. revert l'. induction l as [|[t two] l IH]; intros [|[u two'] l'] I I' S S' H.
  - auto.
  - exfalso. cbn [text] in H. rewrite sapp_assoc in H. simpl (_ ++ r)%string in H. subst r.
    destruct (first_letter w u (("_" ++ (if two' then "_" else "") ++ text w l') ++ r')%string)
      as (c & q & E & L); [apply T1, I'; simpl; auto|].
    rewrite E in S. simpl in S. tauto.
  - exfalso. cbn [text] in H. rewrite sapp_assoc in H. simpl ("" ++ r')%string in H. subst r'.
    destruct (first_letter w t (("_" ++ (if two then "_" else "") ++ text w l) ++ r)%string)
      as (c & q & E & L); [apply T1, I; simpl; auto|].
    rewrite E in S'. simpl in S'. tauto.
  - cbn [text] in H. rewrite !sapp_assoc in H.
    assert (It : In t ts) by (apply I; simpl; auto).
    assert (Iu : In u ts) by (apply I'; simpl; auto).
    assert (E : t = u).
    { rewrite <- (sapp_assoc (word w t)), <- (sapp_assoc (word w u)) in H.
      destruct (begins_total _ _ _ _ H) as [B|B]; [|symmetry]; apply T2; auto. }
    subst u. apply sapp_inj in H. apply (sapp_inj "_") in H.
    assert (two = two').
    { destruct two, two'; auto; exfalso; simpl in H.
      - destruct l' as [|[v z] l'].
        + simpl in H. subst r'. simpl in S'. tauto.
        + cbn [text] in H. rewrite sapp_assoc in H.
          destruct (first_letter w v (("_" ++ (if z then "_" else "") ++ text w l') ++ r')%string)
            as (c & q & E & L); [apply T1, I'; simpl; auto|].
          rewrite E in H. injection H as <- _. exact (letter_under L).
      - destruct l as [|[v z] l].
        + simpl in H. subst r. simpl in S. tauto.
        + cbn [text] in H. rewrite sapp_assoc in H.
          destruct (first_letter w v (("_" ++ (if z then "_" else "") ++ text w l) ++ r)%string)
            as (c & q & E & L); [apply T1, I; simpl; auto|].
          rewrite E in H. injection H as -> _. exact (letter_under L). }
    subst two'. apply sapp_inj in H.
    destruct (IH l') as [-> ->]; auto.
    + intros x X. apply I. simpl; auto.
    + intros x X. apply I'. simpl; auto.
Qed.

(** A group of words as it is printed. *)
Fixpoint toks (g : list nat) : list (nat * bool) :=
  match g with [] => [] | [t] => [(t, false)] | t :: g' => (t, true) :: toks g' end.
Definition all_toks (gs : list (list nat)) : list (nat * bool) := concat (map toks gs).

Lemma toks_fst g : map fst (toks g) = g.
Proof. induction g as [|t [|u g] IH]; auto. cbn [toks map fst] in *. f_equal; auto. Qed.
Lemma all_toks_fst gs : map fst (all_toks gs) = concat gs.
Proof.
  unfold all_toks. induction gs; simpl; auto. rewrite map_app, toks_fst. congruence.
Qed.

Lemma toks_app_inj g h x y :
  g <> [] -> h <> [] -> toks g ++ x = toks h ++ y -> g = h /\ x = y.
Proof.
  revert h; induction g as [|t [|u g] IH]; intros [|v [|v' h]] G H E; try congruence.
  - cbn in E. injection E as -> ->. auto.
  - cbn in E. congruence.
  - cbn in E. congruence.
  - change (toks (t :: u :: g)) with ((t, true) :: toks (u :: g)) in E.
    change (toks (v :: v' :: h)) with ((v, true) :: toks (v' :: h)) in E.
    cbn [app] in E. injection E as -> E.
    destruct (IH (v' :: h)) as [Q ->]; [congruence|congruence|exact E|]. rewrite Q; auto.
Qed.
Lemma all_toks_inj gs hs :
  (forall g, In g gs -> g <> []) -> (forall g, In g hs -> g <> []) ->
  all_toks gs = all_toks hs -> gs = hs.
Proof.
  assert (N : forall g, g <> [] -> toks g <> []) by (intros [|t [|u g]]; cbn; congruence).
  unfold all_toks. revert hs; induction gs as [|g gs IH]; intros [|h hs] G H E; auto; cbn in E.
  - exfalso. symmetry in E. apply app_eq_nil in E. apply (N h); [apply H; simpl; auto|tauto].
  - exfalso. apply app_eq_nil in E. apply (N g); [apply G; simpl; auto|tauto].
  - apply toks_app_inj in E; [|apply G; simpl; auto|apply H; simpl; auto].
    destruct E as [-> E]. f_equal. apply IH; auto; intros; [apply G|apply H]; simpl; auto.
Qed.
