(** C75, the saved form of the loss argument: what serialize_loss makes of every argument, and that
    the saved form registers the same losses. *)
From Coq Require Import String List Arith Bool Reals.
From Verif.Base Require Import Py.
From Verif.Keras Require Import Layers LayerSpec LayerProps.
Import ListNotations.
Open Scope string_scope.
Open Scope list_scope.

(** The saved form of one loss: names stay, a function becomes its name, an object a dict. *)
Inductive saved_one : lossv -> lossv -> Prop :=
| saved_name s : saved_one (LStr s) (LStr s)
| saved_function nm : saved_one (LFun nm) (LStr nm)
| saved_object c : saved_one (LClass c) (LDict c).

(** The saved form of the argument: the same container with the same keys in the same order. *)
Inductive saved : lossarg -> lossarg -> Prop :=
| saved_none : saved LaNone LaNone
| saved_single v w : saved_one v w -> saved (LaOne v) (LaOne w)
| saved_list l l' : Forall2 saved_one l l' -> saved (LaList l) (LaList l')
| saved_dict d d' : Forall2 (fun kv kw => fst kv = fst kw /\ saved_one (snd kv) (snd kw)) d d' -> saved (LaDict d) (LaDict d').

Lemma one_saved v w : serialize_one v = Ok w <-> saved_one v w.
Proof.
  split.
  - destruct v; cbn; intro H; try discriminate; injection H as <-; constructor.
  - intros []; reflexivity.
Qed.
Lemma map_saved {A B} (f : A -> res B) (P : A -> B -> Prop) :
  (forall a b, f a = Ok b <-> P a b) -> forall l l', map_res f l = Ok l' <-> Forall2 P l l'.
Proof.
  intros E. induction l as [|a l IH]; intros l'; cbn.
  - split; intro H; [injection H as <-; constructor|now inversion H].
  - split.
    + destruct (f a) as [b|] eqn:Fa; cbn; [|discriminate]. destruct (map_res f l) as [bs|] eqn:M; cbn; [|discriminate].
      intro H. injection H as <-. constructor; [now apply E|now apply IH].
    + intro H. inversion H as [|x b y bs Ha Hl]; subst. apply E in Ha. rewrite Ha. cbn.
      apply IH in Hl. rewrite Hl. reflexivity.
Qed.

Definition pair_saved (kv kw : string * lossv) : Prop := fst kv = fst kw /\ saved_one (snd kv) (snd kw).
Lemma pair_one_saved (kv kw : string * lossv) :
  (do w <- serialize_one (snd kv); Ok (fst kv, w)) = Ok kw <-> pair_saved kv kw.
Proof.
  destruct kv as [k v], kw as [k' v']. unfold pair_saved. cbn [fst snd]. split.
  - destruct (serialize_one v) as [x|] eqn:S; cbn; [|discriminate]. intro H. injection H as <- <-.
    split; [reflexivity|]. now apply one_saved.
  - intros [<- S]. apply one_saved in S. now rewrite S.
Qed.

(** serialize_loss accepts exactly the arguments without saved objects, and gives their saved form. *)
Theorem C75_saved_form : forall loss w, serialize_loss loss = Ok w <-> saved loss w.
Proof.
  intros loss w. split.
  - destruct loss as [|v|l|d]; cbn [serialize_loss].
    + intro H. injection H as <-. constructor.
    + destruct v; cbn; intro H; try discriminate; injection H as <-; constructor; constructor.
    + destruct (map_res _ l) as [l'|] eqn:M; cbn; [|discriminate]. intro H. injection H as <-.
      constructor. exact (proj1 (map_saved _ _ one_saved _ _) M).
    + destruct (map_res _ d) as [d'|] eqn:M; cbn; [|discriminate]. intro H. injection H as <-.
      constructor. exact (proj1 (map_saved _ _ pair_one_saved _ _) M).
  - intros [|v x H|l l' H|d d' H]; cbn [serialize_loss].
    + reflexivity.
    + destruct H; reflexivity.
    + rewrite (proj2 (map_saved _ _ one_saved _ _) H). reflexivity.
    + rewrite (proj2 (map_saved _ _ pair_one_saved _ _) H). reflexivity.
Qed.
Print Assumptions C75_saved_form.

(** Losses given as names or functions (which have a name). *)
Definition plain (v : lossv) : Prop :=
  match v with LStr _ => True | LFun nm => nm <> "" | LClass _ | LDict _ => False end.
Definition plain_arg (loss : lossarg) : Prop :=
  match loss with
  | LaNone => True | LaOne v => plain v | LaList l => Forall plain l | LaDict d => Forall (fun kv => plain (snd kv)) d
  end.

(** One loss and its saved form, and dicts of such. *)
Definition same_loss (v w : lossv) : Prop := plain v /\ saved_one v w.
Definition same_dict : list (string * lossv) -> list (string * lossv) -> Prop :=
  Forall2 (fun kv kw => fst kv = fst kw /\ same_loss (snd kv) (snd kw)).

Lemma register_same producer op_inputs l v w x seed : same_loss v w ->
  register_loss producer op_inputs l w x seed = register_loss producer op_inputs l v x seed.
Proof. intros [P S]. destruct S; [reflexivity|reflexivity|destruct P]. Qed.
Lemma lookup_same d d' k : same_dict d d' ->
  match lookup d k, lookup d' k with Some v, Some w => same_loss v w | None, None => True | _, _ => False end.
Proof.
  induction 1 as [|[k1 v] [k2 w] d d' [E S] _ IH]; cbn in *; [exact I|]. subst k2. destruct (String.eqb k1 k); [exact S|exact IH].
Qed.
Lemma assign_same d d' k v w : same_dict d d' -> same_loss v w -> same_dict (assign d k v) (assign d' k w).
Proof.
  intros H S. induction H as [|[k1 v1] [k2 w1] d d' [E S1] H IH]; cbn in *; [repeat constructor; assumption || apply S|].
  subst k2. destruct (String.eqb k1 k); constructor; cbn; auto.
Qed.
Lemma delete_same d d' k : same_dict d d' -> same_dict (delete d k) (delete d' k).
Proof.
  induction 1 as [|[k1 v1] [k2 w1] d d' [E S1] H IH]; cbn in *; [constructor|].
  subst k2. destruct (negb (String.eqb k1 k)); [constructor; cbn; auto|exact IH].
Qed.
Lemma zip_same ns l l' : Forall2 same_loss l l' -> same_dict (zip ns l) (zip ns l').
Proof.
  intros H. revert ns. induction H as [|v w l l' S _ IH]; intros [|n ns]; cbn; constructor; cbn; auto. apply IH.
Qed.
Lemma dict_of_same d d' : same_dict d d' -> same_dict (dict_of d) (dict_of d').
Proof.
  intros H. unfold dict_of. assert (A : same_dict [] []) by constructor. revert A. generalize (@nil (string * lossv)) at 1 3.
  generalize (@nil (string * lossv)). induction H as [|[k1 v1] [k2 w1] d d' [E S1] H IH]; intros a b A; cbn in *; [exact A|].
  subst k2. apply IH. now apply assign_same.
Qed.
Lemma keys_same d d' : same_dict d d' -> map fst d' = map fst d.
Proof. induction 1 as [|kv kw d d' [E _] _ IH]; cbn; congruence. Qed.

Lemma length_same l l' : Forall2 same_loss l l' -> List.length l' = List.length l.
Proof. induction 1; cbn; congruence. Qed.

Lemma loss_dict_same m loss w : plain_arg loss -> saved loss w ->
  match loss_dict m loss, loss_dict m w with
  | Ok d, Ok d' => same_dict d d' | Raise e, Raise e' => e = e' | _, _ => False end.
Proof.
  intros P S. destruct S as [|v w S|l l' S|d d' S]; cbn in P.
  - cbn. constructor.
  - destruct S as [s|nm|c]; [| |destruct P].
    + cbn [loss_dict]. destruct s as [|a s]; [constructor|].
      destruct (Nat.ltb 1 _); [reflexivity|]. destruct (rev (m_layers m)); [reflexivity|].
      repeat constructor.
    + cbn [loss_dict]. destruct nm as [|a s]; [destruct P; reflexivity|].
      destruct (Nat.ltb 1 _); [reflexivity|]. destruct (rev (m_layers m)); [reflexivity|].
      constructor; [|constructor]. split; [reflexivity|]. split; [exact P|constructor].
  - assert (F : Forall2 same_loss l l').
    { clear m. induction S as [|v w l l' S _ IH]; constructor; inversion P; subst; [now split|now apply IH]. }
    destruct F as [|v w l l' S1 F]; [constructor|].
    cbn [loss_dict]. rewrite (length_same (v :: l) (w :: l')) by (constructor; assumption).
    destruct (Nat.eqb _ _); [|reflexivity]. apply dict_of_same, zip_same. now constructor.
  - assert (F : same_dict d d').
    { clear m. induction S as [|kv kw d d' [E S] _ IH]; constructor; inversion P; subst; [now repeat split|now apply IH]. }
    destruct F as [|kv kw d d' S1 F]; [constructor|].
    cbn [loss_dict]. rewrite (keys_same (kv :: d) (kw :: d')) by (constructor; assumption).
    destruct (_ && _); [|reflexivity]. now constructor.
Qed.

Lemma flatten_same fuel : forall stack d d' flat, same_dict d d' ->
  match flatten_loop fuel stack d flat, flatten_loop fuel stack d' flat with
  | Ok (f, x), Ok (f', x') => f = f' /\ same_dict x x' | Raise e, Raise e' => e = e' | _, _ => False end.
Proof.
  induction fuel as [|fuel IH]; intros stack d d' flat H; cbn [flatten_loop]; [auto|].
  destruct stack as [|[l|nm ls outs] stack]; [auto|now apply IH|].
  pose proof (lookup_same d d' nm H) as L. destruct (lookup d nm) as [v|], (lookup d' nm) as [w|]; try easy.
  - destruct outs as [|o [|]]; cbn [bind]; [reflexivity| |reflexivity]. apply IH, assign_same; [now apply delete_same|exact L].
  - cbn [bind]. now apply IH.
Qed.

Lemma register_all_same producer op_inputs p fa d d' lw seed ls : same_dict d d' ->
  register_all producer op_inputs p fa d' lw seed ls = register_all producer op_inputs p fa d lw seed ls.
Proof.
  intros H. induction ls as [|l ls IH]; cbn [register_all]; [reflexivity|]. rewrite IH.
  destruct (register_layer _ _ _ _ _); cbn [bind]; [|reflexivity].
  pose proof (lookup_same d d' (l_name l) H) as L. destruct (lookup d _) as [v|], (lookup d' _) as [w|]; try easy.
  now rewrite (register_same _ _ _ v w).
Qed.

(** Names and functions can be saved, the saved form is its own saved form, and it makes the same
    registrations on every model, or the same exception.  Missing: losses that are objects, for
    which it is false (C75_serialized_losses_refuted). *)
Theorem C75_saved_losses_register_partial : forall loss, plain_arg loss ->
  exists w, serialize_loss loss = Ok w /\ serialize_loss w = Ok w /\
    forall producer op_inputs p m weights approx seed,
      (do r <- get_layer_collection producer op_inputs p m w weights approx seed; Ok (fst r)) =
      (do r <- get_layer_collection producer op_inputs p m loss weights approx seed; Ok (fst r)).
Proof.
  intros loss P.
  assert (S : exists w, saved loss w /\ saved w w).
  { assert (O : forall v, plain v -> exists w, saved_one v w /\ saved_one w w).
    { intros [s|nm|c|c]; cbn; intro; try easy; eexists; split; constructor. }
    destruct loss as [|v|l|d]; cbn in P.
    - exists LaNone. split; constructor.
    - destruct (O v P) as (w & A & B). exists (LaOne w). split; now constructor.
    - assert (L : exists l', Forall2 saved_one l l' /\ Forall2 saved_one l' l').
      { induction P as [|v l Pv _ (l' & A & B)]; [exists []; split; constructor|].
        destruct (O v Pv) as (w & S1 & S2). exists (w :: l'). split; now constructor. }
      destruct L as (l' & A & B). exists (LaList l'). split; now constructor.
    - assert (L : exists d', Forall2 pair_saved d d' /\ Forall2 pair_saved d' d').
      { induction P as [|[k v] d Pv _ (d' & A & B)]; [exists []; split; constructor|].
        destruct (O v Pv) as (w & S1 & S2). exists ((k, w) :: d'). split; constructor; try assumption; now split. }
      destruct L as (d' & A & B). exists (LaDict d'). split; now constructor. }
  destruct S as (w & S1 & S2). exists w. split; [now apply C75_saved_form|]. split; [now apply C75_saved_form|].
  intros producer op_inputs p m weights approx seed. unfold get_layer_collection.
  pose proof (loss_dict_same m loss w P S1) as L.
  destruct (loss_dict m loss) as [d|e], (loss_dict m w) as [d'|e']; try easy; cbn [bind]; [|now rewrite L].
  unfold flatten. pose proof (flatten_same (layers_size (m_layers m)) (m_layers m) d d' [] L) as F.
  destruct (flatten_loop _ _ d _) as [[f x]|e], (flatten_loop _ _ d' _) as [[f' x']|e']; try easy; cbn [bind]; [|now rewrite F].
  destruct F as [<- F].
  destruct (get_verified_dict key_string _ _ _) as [fa|]; cbn [bind]; [|reflexivity].
  destruct (get_verified_dict _ _ weights _) as [lw|]; cbn [bind]; [|reflexivity].
  rewrite (register_all_same _ _ _ _ x x') by exact F.
  destruct (register_all _ _ _ _ x _ _ _); reflexivity.
Qed.
Print Assumptions C75_saved_losses_register_partial.

(** A dict with a function is a plain argument, its saved form differs, and the registration succeeds. *)
Example C75_saved_example :
  let loss := LaDict [("out", LFun "mean_squared_error")] in
  plain_arg loss /\ serialize_loss loss = Ok (LaDict [("out", LStr "mean_squared_error")]) /\
  is_ok (get_layer_collection no_producer no_inputs (SetTo true) (mkModel [Leaf (dense "out" 0 0)] ["out"]) loss CNone CNone None) = true.
Proof. split; [repeat constructor; discriminate|]. split; reflexivity. Qed.
