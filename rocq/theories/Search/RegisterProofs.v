(** Proofs about register_layers (C51). *)
From Coq Require Import String List Arith ZArith Bool Lia Permutation.
From Verif.Base Require Import Py.
From Verif.Graph Require Import Model.
From Verif.Registry Require Import Model Spec BlockProofs HistoryProofs LossProofs.
From Verif.Search Require Import Model Spec FilterProofs.
Import ListNotations.
Open Scope list_scope.

Lemma mbind_ok {A B} (m : M A) (k : A -> M B) c c' b :
  mbind m k c = (c', Ok b) -> exists a c1, m c = (c1, Ok a) /\ k a c1 = (c', Ok b).
Proof. unfold mbind. destruct (m c) as [c1 [a|e]]; intros H; [eauto|discriminate]. Qed.

(* ------------------------------------------------------------------------ *)
(** * One call *)

Definition usable (l : layer_call) : Prop :=
  match l with
  | Separable _ _ _ _ _ _ _ _ _ _ => False
  | FullyConnectedMulti _ (AMany []) _ _ _ _ => False
  | _ => True
  end.
Lemma usable_clean shape scope l c c' : usable l -> run_layer shape scope l c = (c', Ok tt) -> clean shape l.
Proof.
  assert (D : forall p c1 c2 n, lift (one_hot_depth shape p) c1 = (c2, Ok n) -> indexable shape p).
  { intros p c1 c2 n H. injection H as _ H. destruct p as [v|vs]; [|discriminate]. cbn in H.
    exists v. split; [reflexivity|]. destruct (shape v); [discriminate|]. discriminate. }
  assert (F : forall p key i o c1 c2, finish_multi p key i o c1 = (c2, Ok tt) -> matching i o).
  { intros p key i o c1 c2 H. unfold finish_multi in H. apply mbind_ok in H as (? & ? & _ & H).
    destruct i as [t|ts]; [exact I|]. destruct o as [u|us]; [discriminate|]. cbn.
    apply mbind_ok in H as (? & ? & H & _). unfold assert_ in H.
    destruct (Nat.eqb _ _) eqn:E; [apply Nat.eqb_eq, E|discriminate]. }
  intros U R. destruct l; cbn [clean]; try exact I; cbn [run_layer] in R.
  - unfold register_fully_connected in R. apply mbind_ok in R as ([k a] & ? & _ & R).
    apply mbind_ok in R as (? & ? & _ & R). apply mbind_ok in R as (? & ? & R & _).
    destruct dense; [left; reflexivity|right; eapply D, R].
  - destruct U.
  - unfold register_fully_connected_multi in R. apply mbind_ok in R as ([k a] & ? & _ & R).
    apply mbind_ok in R as (? & ? & _ & R). apply mbind_ok in R as (? & ? & Q & R). split; [|eapply F, R].
    destruct dense; [left; reflexivity|right]. destruct i as [t|[|t ts]]; [eapply D, Q|destruct U|eapply D, Q].
  - unfold register_conv2d_multi in R. apply mbind_ok in R as (? & ? & _ & R).
    apply mbind_ok in R as ([k a] & ? & _ & R). apply mbind_ok in R as (? & ? & _ & R).
    apply mbind_ok in R as (? & ? & _ & R). eapply F, R.
Qed.

(** The parameters and the tower of a call. *)
Definition call_part (x : planned) : params * tower :=
  match parts (pl_call x) with t :: _ => (pt_params t, pt_tower t) | [] => (PTup [], mkTower [] []) end.

(** What a call may not change. *)
Definition frame (c c' : coll) : Prop :=
  c_linked c' = c_linked c /\ c_def c' = c_def c /\ c_losses c' = c_losses c.
Lemma frame_refl c : frame c c. Proof. repeat split. Qed.
Lemma frame_trans a b c : frame a b -> frame b c -> frame a c.
Proof. unfold frame. intros (? & ? & ?) (? & ? & ?). repeat split; congruence. Qed.

(** A registration with reuse False appends a block, with reuse True a tower. *)
Definition step (r : reuse) (bs : list (params * block)) (x : params * tower) (bs' : list (params * block)) : Prop :=
  match r with
  | RFalse => exists k a, bs' = bs ++ [(fst x, mkBlock k a [snd x])]
  | RTrue => (exists b, find_block bs (fst x) = Some b) /\ bs' = append_tower bs (fst x) (snd x)
  | _ => False
  end.
Fixpoint steps (r : reuse) (bs : list (params * block)) (xs : list (params * tower)) (bs' : list (params * block)) : Prop :=
  match xs with
  | [] => bs' = bs
  | x :: xs' => exists b1, step r bs x b1 /\ steps r b1 xs' bs'
  end.
Lemma steps_app r xs : forall bs ys b1 b2, steps r bs xs b1 -> steps r b1 ys b2 -> steps r bs (xs ++ ys) b2.
Proof.
  induction xs as [|x xs IH]; cbn; intros bs ys b1 b2 A B; [subst; exact B|].
  destruct A as (b & S & A). exists b. split; [exact S|]. eapply IH; eauto.
Qed.

Definition plain (r : reuse) : Prop := r = RFalse \/ r = RTrue.
Lemma call_step shape r x c c' :
  plain r -> usable (pl_call x) -> reuse_of (pl_call x) = r ->
  run_layer shape r (pl_call x) c = (c', Ok tt) ->
  step r (c_blocks c) (call_part x) (c_blocks c') /\ frame c c' /\ (DK c -> DK c').
Proof.
  intros Pl U Ro R. pose proof (usable_clean _ _ _ _ _ U R) as Cl.
  split; [|split].
  - destruct (layer_atomic shape r (pl_call x) c Cl) as [(e & E')|(u & c'' & E' & _ & t & kk & ap & P & _ & Cm)];
      rewrite R in E'; [congruence|]. injection E' as <- _.
    unfold call_part. rewrite P. cbn [fst snd].
    inversion Cm as [F Nr O|b0 F K Nr]; subst c'; rewrite Ro in Nr; destruct Pl as [-> | ->]; cbn in Nr.
    + exists kk, ap. reflexivity.
    + congruence.
    + destruct Nr; discriminate.
    + split; [eauto|reflexivity].
  - destruct (layer_atomic shape r (pl_call x) c Cl) as [(e & E')|(u & c'' & E' & _ & t & kk & ap & P & _ & Cm)];
      rewrite R in E'; [congruence|]. injection E' as <- _.
    inversion Cm; subst c'; repeat split.
  - intros D. pose proof (DK_layer shape r (pl_call x) c D) as K. rewrite R in K. exact K.
Qed.

Lemma run_calls_steps pr r xs : plain r -> forall c c',
  (forall x, In x xs -> usable (pl_call x) /\ reuse_of (pl_call x) = r) ->
  run_calls pr r xs c = (c', Ok tt) ->
  steps r (c_blocks c) (map call_part xs) (c_blocks c') /\ frame c c' /\ (DK c -> DK c').
Proof.
  intros Pl. induction xs as [|x xs IH]; intros c c' H R; cbn in R.
  - injection R as <-. split; [reflexivity|]. split; [apply frame_refl|auto].
  - apply mbind_ok in R as ([] & c1 & A & B). destruct (H x (or_introl eq_refl)) as [U Ro].
    destruct (call_step _ _ _ _ _ Pl U Ro A) as (S & F & D).
    destruct (IH c1 c') as (S' & F' & D'); [intros y I; apply H; right; exact I|exact B|].
    split; [exists (c_blocks c1); auto|]. split; [eapply frame_trans; eauto|auto].
Qed.

(* ------------------------------------------------------------------------ *)
(** * Plans *)

Lemma plan_frame pr c c' r bs p l : frame c c' -> plan pr c' r bs p l = plan pr c r bs p l.
Proof.
  intros (L & D & _). destruct l as [|x l]; [reflexivity|]. unfold plan, plan_fully_connected, plan_batch_norm, get_linked_approx.
  rewrite L, D. reflexivity.
Qed.

(** What the planned calls register. *)
Definition registers_data (d : list (params * list record)) varlist user bs (xs : list (params * tower)) : Prop :=
  forall p tw, In (p, tw) xs -> tower_data d varlist user bs p tw.

Lemma arg_id pr t : a_id (arg pr t) = t. Proof. reflexivity. Qed.
Lemma map_arg_id pr (f : record -> nat) l : map a_id (map (fun x => arg pr (f x)) l) = map f l.
Proof. rewrite map_map. reflexivity. Qed.

Lemma plan_calls pr c r bs p l xs :
  plan pr c r bs p l = Ok (Some xs) ->
  (forall x, In x xs -> usable (pl_call x) /\ reuse_of (pl_call x) = r) /\
  concat (map (fun x => vars_of (fst (call_part x))) xs) = vars_of p /\
  ((forall x, In x l -> r_type x <> RT_batch_norm) /\ map call_part xs = [(p, mkTower (map r_inputs l) (map r_outputs l))] \/
   (forall x, In x l -> r_type x = RT_batch_norm) /\ exists n, bs = Some n /\
      (map call_part xs = [(p, mkTower [n] [])] \/ map call_part xs = map (fun v => (PVar v, mkTower [n] [])) (vars_of p))).
Proof.
  destruct l as [|first rest]; [discriminate|]. cbn [plan].
  destruct (forallb _ (first :: rest)) eqn:T; cbn [negb]; [|discriminate].
  rewrite forallb_forall in T.
  assert (Same : forall x, In x (first :: rest) -> r_type x = r_type first).
  { intros x I. specialize (T x I). destruct (r_type first), (r_type x); (reflexivity || discriminate). }
  clear T. unfold bind. intros H.
  assert (One : forall x, parts (pl_call x) = [mkPart p (mkTower (map r_inputs (first :: rest)) (map r_outputs (first :: rest)))
       (match parts (pl_call x) with t :: _ => pt_uses t | [] => Fin 0 end)] -> xs = [x] -> r_type first <> RT_batch_norm ->
     usable (pl_call x) -> reuse_of (pl_call x) = r ->
     (forall x, In x xs -> usable (pl_call x) /\ reuse_of (pl_call x) = r) /\
     concat (map (fun x => vars_of (fst (call_part x))) xs) = vars_of p /\
     ((forall x, In x (first :: rest) -> r_type x <> RT_batch_norm) /\
        map call_part xs = [(p, mkTower (map r_inputs (first :: rest)) (map r_outputs (first :: rest)))] \/
      (forall x, In x (first :: rest) -> r_type x = RT_batch_norm) /\ exists n, bs = Some n /\
        (map call_part xs = [(p, mkTower [n] [])] \/ map call_part xs = map (fun v => (PVar v, mkTower [n] [])) (vars_of p)))).
  { intros x P -> Nb U Ro.
    assert (Cp : call_part x = (p, mkTower (map r_inputs (first :: rest)) (map r_outputs (first :: rest)))).
    { unfold call_part. rewrite P. reflexivity. }
    split; [intros y [<-|[]]; auto|]. split.
    - cbn [map concat]. rewrite Cp, app_nil_r. reflexivity.
    - left. split; [intros y I; rewrite (Same y I); exact Nb|]. cbn [map]. rewrite Cp. reflexivity. }
  destruct (r_type first) eqn:Ty.
  - (* fully connected *)
    unfold plan_fully_connected in H. destruct rest as [|r2 rest].
    + destruct (pr_dims pr (r_inputs first)) as [[fd dims]|]; [|discriminate].
      destruct (Nat.ltb (if r_dense first then 2 else 1) (S (List.length dims))); cbn [negb] in H; rewrite ?andb_false_r, ?andb_true_r in H;
        destruct bs as [n|]; try destruct fd as [f|]; try destruct dims as [|d1 dims];
        repeat match type of H with context [if ?b then _ else _] => destruct b end; try discriminate;
        injection H as <-; (eapply One; [|reflexivity|discriminate|exact I|reflexivity]; reflexivity).
    + injection H as <-. eapply One; [|reflexivity|discriminate|exact I|reflexivity].
      cbn [pl_call parts ids map]. rewrite !map_arg_id. reflexivity.
  - unfold plan_conv2d in H. destruct rest as [|r2 rest].
    + destruct (pr_dims pr (r_inputs first)) as [[fd dims]|]; [|discriminate].
      destruct (Nat.ltb 4 (S (List.length dims))); cbn [negb] in H; rewrite ?andb_false_r, ?andb_true_r in H;
        destruct bs as [n|]; try destruct fd as [f|];
        repeat match type of H with context [if ?b then _ else _] => destruct b end; try discriminate;
        injection H as <-; (eapply One; [|reflexivity|discriminate|exact I|reflexivity]; reflexivity).
    + injection H as <-. eapply One; [|reflexivity|discriminate|exact I|reflexivity].
      cbn [pl_call parts ids map]. rewrite !map_arg_id. reflexivity.
  - unfold plan_scale_and_shift in H. destruct rest; [|discriminate]. injection H as <-.
    eapply One; [|reflexivity|discriminate|exact I|reflexivity]. reflexivity.
  - unfold plan_batch_norm in H. destruct bs as [n|]; [|discriminate]. injection H as <-. clear One.
    destruct (match get_linked_approx c p with Some _ => _ | None => _ end).
    + split; [intros x I; apply in_map_iff in I as (q & <- & _); split; [exact Logic.I|reflexivity]|]. rewrite !map_map. cbn.
      split; [induction (vars_of p) as [|v vs IH]; [reflexivity|]; cbn; rewrite IH; reflexivity|].
      right. split; [exact Same|]. exists n. split; [reflexivity|]. right. reflexivity.
    + split; [intros x [<-|[]]; split; [exact Logic.I|reflexivity]|]. cbn. rewrite app_nil_r. split; [reflexivity|].
      right. split; [exact Same|]. exists n. split; [reflexivity|]. left. reflexivity.
Qed.

Lemma loop_steps pr r bs d0 varlist user d : plain r -> forall mixed c c',
  (forall x, In x d -> In x d0) ->
  register_loop pr r bs d mixed c = (c', Ok tt) ->
  exists xs, steps r (c_blocks c) xs (c_blocks c') /\ frame c c' /\ (DK c -> DK c') /\
    concat (map (fun x => vars_of (fst x)) xs) = concat (map (fun x => vars_of (fst x)) d) /\
    registers_data d0 varlist user bs xs /\ mixed = false.
Proof.
  intros Pl. induction d as [|[p l] d IH]; intros mixed c c' Sub R; cbn in R.
  - destruct mixed; [discriminate|]. injection R as <-. exists []. split; [reflexivity|]. split; [apply frame_refl|].
    split; [auto|]. split; [reflexivity|]. split; [intros p tw []|reflexivity].
  - unfold mbind at 1 in R. destruct (plan pr c r bs p l) as [[calls|]|e] eqn:P; [| |discriminate].
    + apply mbind_ok in R as ([] & c1 & A & B). destruct (plan_calls _ _ _ _ _ _ _ P) as (U & V & K).
      destruct (run_calls_steps _ _ _ Pl _ _ U A) as (S & F & D).
      destruct (IH mixed c1 c') as (xs & S' & F' & D' & V' & K' & M); [intros x I; apply Sub; right; exact I|exact B|].
      exists (map call_part calls ++ xs). split; [eapply steps_app; eauto|]. split; [eapply frame_trans; eauto|].
      split; [auto|]. split.
      { rewrite map_app, concat_app, V'. cbn. f_equal. rewrite map_map. exact V. }
      split; [|exact M]. intros q tw I. apply in_app_iff in I as [I|I]; [|apply K', I].
      assert (J : In (p, l) d0) by (apply Sub; left; reflexivity).
      destruct K as [[Nb E]|[Nb (n & -> & [E|E])]]; rewrite E in I.
      * destruct I as [I|[]]. injection I as <- <-. apply td_layer; assumption.
      * destruct I as [I|[]]. injection I as <- <-. eapply td_norm; eauto.
      * apply in_map_iff in I as (v & I & J'). injection I as <- <-. eapply td_norm; eauto.
    + destruct (IH true c c') as (xs & _ & _ & _ & _ & _ & M); [intros x I; apply Sub; right; exact I|exact R|]. discriminate.
Qed.

Lemma insert_sorted_perm pr x l : Permutation (insert_sorted pr x l) (x :: l).
Proof.
  induction l as [|y l IH]; [reflexivity|]. cbn. destruct (String.leb _ _); [reflexivity|].
  rewrite IH. apply perm_swap.
Qed.
Lemma sorted_perm pr d : Permutation (sorted_records pr d) d.
Proof. induction d as [|x d IH]; [reflexivity|]. cbn. rewrite insert_sorted_perm, IH. reflexivity. Qed.

Lemma rest_steps pr r bs d varlist0 user regd : plain r -> forall varlist c c',
  (forall v, In v varlist -> In v varlist0) ->
  (forall v, ~ In v regd -> ~ In v user /\ forall p l, In (p, l) d -> ~ In v (vars_of p)) ->
  register_rest pr varlist regd r bs c = (c', Ok tt) ->
  exists xs, steps r (c_blocks c) xs (c_blocks c') /\ frame c c' /\ (DK c -> DK c') /\
    concat (map (fun x => vars_of (fst x)) xs) = filter (fun v => negb (mem v regd)) varlist /\
    registers_data d varlist0 user bs xs.
Proof.
  intros Pl. induction varlist as [|v vl IH]; intros c c' Sub Out R; cbn in R.
  - injection R as <-. exists []. split; [reflexivity|]. split; [apply frame_refl|]. split; [auto|].
    split; [reflexivity|]. intros p tw [].
  - cbn [filter]. destruct (mem v regd) eqn:E; cbn [negb].
    + apply IH; [intros w I; apply Sub; right; exact I|exact Out|exact R].
    + apply mbind_ok in R as ([] & c1 & A & B). destruct (existsb _ (c_linked c)); [discriminate|].
      destruct bs as [n|]; [|discriminate].
      destruct (call_step (pr_shape pr) r (mkPlan (Generic (PVar v) n None r) None) c c1 Pl) as (S & F & D);
        [exact I|reflexivity|exact A|].
      destruct (IH c1 c') as (xs & S' & F' & D' & V & K); [intros w J; apply Sub; right; exact J|exact Out|exact B|].
      exists ((PVar v, mkTower [n] []) :: xs). split; [exists (c_blocks c1); auto|]. split; [eapply frame_trans; eauto|].
      split; [auto|]. split; [cbn; f_equal; exact V|].
      intros p tw [J|J]; [|apply K, J]. injection J as <- <-. apply mem_false in E. destruct (Out v E) as [O1 O2].
      apply td_rest; [apply Sub; left; reflexivity|exact O1|exact O2|reflexivity].
Qed.

(* ------------------------------------------------------------------------ *)
(** * What the scan finds concerns the given variables *)

Definition about (varlist : list nat) (r : record) : Prop :=
  vars_of (r_params r) <> [] /\ forall v, In v (vars_of (r_params r)) -> In v varlist.
Definition table_ok (varlist : list nat) (m : list (nat * nat)) : Prop := forall t v, var_of m t = Some v -> In v varlist.

Lemma bind_ok {A B} (m : res A) (k : A -> res B) b : bind m k = Ok b -> exists a, m = Ok a /\ k a = Ok b.
Proof. destruct m; cbn; intros H; [eauto|discriminate]. Qed.

Lemma var_of_In m t v : var_of m t = Some v -> exists t', In (t', v) m.
Proof.
  induction m as [|[t' w] m IH]; cbn; [discriminate|]. destruct (var_of m t) eqn:E.
  - intros [= ->]. destruct (IH eq_refl) as (x & I). exists x. right. exact I.
  - destruct (Nat.eqb t' t); [|discriminate]. intros [= ->]. exists t'. left. reflexivity.
Qed.
Lemma ttv_vars pr varlist m : tensors_to_variables pr varlist = Ok m -> forall t v, In (t, v) m ->
  In v varlist /\ exists ts, pr_tensors pr v = Ok ts /\ In t ts.
Proof.
  unfold tensors_to_variables. intros H. apply bind_ok in H as (l & H & E). injection E as <-.
  revert l H. induction varlist as [|w vl IH]; cbn; intros l H t v I.
  - injection H as <-. destruct I.
  - apply bind_ok in H as (y & A & H). apply bind_ok in A as (ts & A & E). injection E as <-.
    apply bind_ok in H as (ys & B & E). injection E as <-. cbn in I. apply in_app_iff in I as [I|I].
    + apply in_map_iff in I as (t' & E & I). injection E as <- <-. split; [left; reflexivity|eauto].
    + destruct (IH _ B t v I) as [J K]. split; [right; exact J|exact K].
Qed.
Lemma ttv_ok pr varlist m : tensors_to_variables pr varlist = Ok m -> table_ok varlist m.
Proof. intros H t v E. apply var_of_In in E as (t' & I). eapply ttv_vars; eauto. Qed.
Lemma var_at_ok varlist m x v : table_ok varlist m -> var_at m x = Some v -> In v varlist.
Proof. intros T. destruct x; cbn; try discriminate. apply T. Qed.
Lemma optional_ok varlist m b n v : table_ok varlist m -> optional_var m b n = Some v -> In v varlist.
Proof. intros T. unfold optional_var. destruct (Match.Model.lookup b n); [|discriminate]. apply var_at_ok, T. Qed.

Lemma record_about varlist m pr b cons : table_ok varlist m ->
  (forall r, record_affine_from_bindings pr b cons m = Ok (Some r) -> about varlist r) /\
  (forall r, record_scale_and_shift_from_bindings b cons m = Ok (Some r) -> about varlist r) /\
  (forall r, record_batch_norm_from_bindings b cons m = Ok (Some r) -> about varlist r).
Proof.
  intros T.
  assert (A1 : forall w, In w varlist -> forall ty x y z u v k, about varlist (mkRec ty (PVar w) x y z u v k)).
  { intros w I ty x y z u v k. split; [discriminate|]. intros ? [<-|[]]. exact I. }
  assert (A2 : forall w w', In w varlist -> In w' varlist -> forall ty x y z u v k, about varlist (mkRec ty (PTup [w; w']) x y z u v k)).
  { intros w w' I J ty x y z u v k. split; [discriminate|]. intros ? [<-|[<-|[]]]; assumption. }
  split; [|split]; intros r H.
  - unfold record_affine_from_bindings in H. apply bind_ok in H as (w & _ & H). apply bind_ok in H as (i & _ & H).
    apply bind_ok in H as (o & _ & H). apply bind_ok in H as (lo & _ & H).
    destruct (optional_var m b "biases") as [bi|] eqn:B, (var_at m w) as [we|] eqn:W; try discriminate;
      apply (var_at_ok _ _ _ _ T) in W; try apply (optional_ok _ _ _ _ _ T) in B;
      repeat match type of H with context [if ?x then _ else _] => destruct x end; try discriminate;
      injection H as <-; auto.
  - unfold record_scale_and_shift_from_bindings in H. apply bind_ok in H as (w & _ & H). apply bind_ok in H as (i & _ & H).
    apply bind_ok in H as (o & _ & H).
    destruct (optional_var m b "shift") as [bi|] eqn:B, (var_at m w) as [we|] eqn:W; try discriminate;
      apply (var_at_ok _ _ _ _ T) in W; try apply (optional_ok _ _ _ _ _ T) in B; injection H as <-; auto.
  - unfold record_batch_norm_from_bindings in H. apply bind_ok in H as (i & _ & H). apply bind_ok in H as (o & _ & H).
    destruct (optional_var m b "scale") as [we|] eqn:W, (optional_var m b "offset") as [bi|] eqn:B; cbn in H; try discriminate;
      try apply (optional_ok _ _ _ _ _ T) in W; try apply (optional_ok _ _ _ _ _ T) in B; injection H as <-; auto.
Qed.

Lemma foldM_inv {A S} (P : S -> Prop) (f : S -> A -> res S) l : forall s s',
  (forall x s s', In x l -> P s -> f s x = Ok s' -> P s') -> P s -> foldM f l s = Ok s' -> P s'.
Proof.
  induction l as [|x l IH]; cbn; intros s s' H Ps E; [injection E as <-; exact Ps|].
  apply bind_ok in E as (s1 & E1 & E). eapply IH; [|eapply H|exact E]; [|left; reflexivity|exact Ps|exact E1].
  intros y t t' I. apply H. right. exact I.
Qed.

Definition found_ok (varlist : list nat) (d : list (params * list record)) : Prop :=
  grouped d /\ forall p l, In (p, l) d -> l <> [] /\ forall r, In r l -> about varlist r.

Lemma add_record_In d r p l : In (p, l) (add_record d r) ->
  In (p, l) d \/ (p = r_params r /\ (l = [r] \/ exists l0, In (p, l0) d /\ l = l0 ++ [r])).
Proof.
  induction d as [|[q m] d IH]; cbn.
  - intros [E|[]]. injection E as <- <-. right. auto.
  - destruct (params_eqb q (r_params r)) eqn:E; cbn.
    + apply params_eqb_spec in E. subst q. intros [E|I]; [|auto]. injection E as <- <-. right. split; [reflexivity|]. right. eauto.
    + intros [E'|I]; [auto|]. destruct (IH I) as [J|(-> & [->|(l0 & J & ->)])]; [auto|auto|]. right. split; [reflexivity|]. right. eauto.
Qed.
Lemma add_record_grouped varlist d r : found_ok varlist d -> about varlist r -> found_ok varlist (add_record d r).
Proof.
  intros [[N G] A] B. split; [split|].
  - apply add_record_nodup, N.
  - intros p l x I J. apply add_record_In in I as [I|(-> & [->|(l0 & I & ->)])]; [eapply G; eauto| |].
    + destruct J as [<-|[]]. reflexivity.
    + apply in_app_iff in J as [J|[<-|[]]]; [eapply G; eauto|reflexivity].
  - intros p l I. apply add_record_In in I as [I|(-> & [->|(l0 & I & ->)])]; [apply (A _ _ I)| |].
    + split; [discriminate|]. intros x [<-|[]]. exact B.
    + destruct (A _ _ I) as [_ A']. split; [destruct l0; discriminate|]. intros x J.
      apply in_app_iff in J as [J|[<-|[]]]; auto.
Qed.

Lemma find_records_ok pr varlist members d : find_records pr varlist members = Ok d -> found_ok varlist d.
Proof.
  unfold find_records. intros H. apply bind_ok in H as (ml & Hml & H). apply bind_ok in H as (m & Hm & H).
  apply ttv_ok in Hm.
  assert (Hf : forall mr, In mr ml -> forall b cons r, snd mr b cons m = Ok (Some r) -> about varlist r).
  { unfold match_register_list in Hml. repeat (apply bind_ok in Hml as (? & _ & Hml)). injection Hml as <-.
    intros mr I b cons r. destruct (record_about varlist m pr b cons Hm) as (R1 & R2 & R3).
    cbn in I. repeat (destruct I as [<-|I]; [cbn; solve [apply R1|apply R2|apply R3]|]). destruct I. }
  eapply foldM_inv; [| |exact H].
  - intros t s s' _ Ps E. eapply foldM_inv; [| |exact E]; [|exact Ps].
    intros mr s1 s2 I P1 E1. unfold try_pattern in E1. apply bind_ok in E1 as (v & _ & E1).
    destruct (Match.Model.truthy v); [|injection E1 as <-; exact P1].
    destruct v; try discriminate. apply bind_ok in E1 as (o & E2 & E1).
    destruct o as [r|]; injection E1 as <-; [|exact P1]. apply add_record_grouped; [exact P1|]. eapply Hf; eauto.
  - split; [split; [constructor|intros p l r []]|intros p l []].
Qed.

(* ------------------------------------------------------------------------ *)
(** * One pass *)

Lemma Permutation_concat_map {A B} (f : A -> list B) l l' : Permutation l l' -> Permutation (concat (map f l)) (concat (map f l')).
Proof.
  induction 1; cbn; [reflexivity| | |].
  - apply Permutation_app_head. assumption.
  - rewrite !app_assoc. apply Permutation_app_tail, Permutation_app_comm.
  - etransitivity; eassumption.
Qed.

Lemma NoDup_app_intro {A} (a b : list A) : NoDup a -> NoDup b -> (forall x, In x a -> ~ In x b) -> NoDup (a ++ b).
Proof.
  induction a as [|x a IH]; cbn; intros Na Nb D; [exact Nb|]. apply NoDup_cons_iff in Na as [X Na]. constructor.
  - rewrite in_app_iff. intros [I|I]; [auto|]. apply (D x); auto.
  - apply IH; auto.
Qed.

Definition xvars (xs : list (params * tower)) : list nat := concat (map (fun x => vars_of (fst x)) xs).

Lemma tower_data_about varlist d linked found user bs p tw :
  found_ok varlist found -> filter_records linked found user = Ok d -> tower_data d varlist user bs p tw ->
  vars_of p <> [] /\ forall v, In v (vars_of p) -> In v varlist /\ ~ In v user.
Proof.
  intros [G A] E T. destruct (filter_characterised _ _ _ _ G E) as (G' & (keep & K & D) & _).
  assert (P : forall q l, In (q, l) d -> vars_of q <> [] /\ forall v, In v (vars_of q) -> In v varlist /\ ~ In v user).
  { intros q l I. apply D in I as (Ne & l0 & I & El). destruct l as [|r l]; [congruence|].
    assert (J : In r (filter keep l0)) by (rewrite <- El; left; reflexivity).
    apply filter_In in J as [J Kr]. apply K in Kr as [[Nt _] _]. destruct (A _ _ I) as [_ B]. specialize (B r J).
    destruct G as [_ G]. rewrite <- (G _ _ _ I J). destruct B as [B1 B2]. split; [exact B1|].
    intros v V. split; [apply B2, V|]. intros U. apply Nt. exists v. split; assumption. }
  destruct T as [p l I _|p l q n I _ Q _|v n I N _ _].
  - apply (P _ _ I).
  - destruct (P _ _ I) as [P1 P2]. destruct Q as [->|(v & V & ->)]; [auto|]. split; [discriminate|].
    intros w [<-|[]]. apply P2, V.
  - split; [discriminate|]. intros w [<-|[]]. auto.
Qed.

Lemma pass_steps pr varlist members user r bs c c' : plain r ->
  register_subgraph_layers pr varlist members user r bs c = (c', Ok tt) ->
  exists found d xs, find_records pr varlist members = Ok found /\ filter_records (map fst (c_linked c)) found user = Ok d /\
    steps r (c_blocks c) xs (c_blocks c') /\ frame c c' /\ (DK c -> DK c') /\
    registers_data d varlist user bs xs /\
    (forall v, In v varlist -> ~ In v user -> In v (xvars xs)) /\
    (NoDup varlist -> NoDup (xvars xs)).
Proof.
  intros Pl R. unfold register_subgraph_layers in R. apply mbind_ok in R as (found & c1 & A & R).
  injection A as <- A. apply mbind_ok in R as (d & c2 & B & R). injection B as <- B.
  apply mbind_ok in R as ([] & c3 & C & R).
  destruct (loop_steps pr r bs d varlist user (sorted_records pr d) Pl false c c3) as (xs & S & F & D & V & K & _);
    [intros x I; eapply Permutation_in; [apply sorted_perm|exact I]|exact C|].
  set (regd := concat (map (fun pl => vars_of (fst pl)) d) ++ user) in *.
  destruct (rest_steps pr r bs d varlist user regd Pl varlist c3 c') as (ys & S' & F' & D' & V' & K'); [auto| |exact R|].
  { intros v N. unfold regd in N. rewrite in_app_iff in N. split; [auto|]. intros p l I J. apply N. left.
    apply in_concat. exists (vars_of p). split; [|exact J]. apply in_map_iff. exists (p, l). auto. }
  exists found, d, (xs ++ ys). split; [exact A|]. split; [exact B|]. split; [eapply steps_app; eauto|].
  split; [eapply frame_trans; eauto|]. split; [auto|].
  assert (Pv : Permutation (xvars xs) (concat (map (fun pl => vars_of (fst pl)) d))).
  { unfold xvars. rewrite V. apply Permutation_concat_map, sorted_perm. }
  assert (Xa : xvars (xs ++ ys) = xvars xs ++ filter (fun v => negb (mem v regd)) varlist).
  { unfold xvars. rewrite map_app, concat_app. f_equal. exact V'. }
  split; [intros p tw I; apply in_app_iff in I as [I|I]; auto|]. split.
  - intros v I N. rewrite Xa, in_app_iff. destruct (mem v regd) eqn:E.
    + apply mem_spec in E. unfold regd in E. apply in_app_iff in E as [E|E]; [|contradiction]. left.
      eapply Permutation_in; [apply Permutation_sym, Pv|exact E].
    + right. apply filter_In. rewrite E. auto.
  - intros N. rewrite Xa. apply NoDup_app_intro.
    + eapply Permutation_NoDup; [apply Permutation_sym, Pv|].
      pose proof (find_records_ok _ _ _ _ A) as [G _].
      destruct (filter_characterised _ _ _ _ G B) as (_ & _ & Nd). rewrite map_map in Nd. exact Nd.
    + apply NoDup_filter, N.
    + intros v I J. apply filter_In in J as [_ J]. rewrite negb_true_iff in J. apply mem_false in J. apply J.
      unfold regd. apply in_app_iff. left. eapply Permutation_in; [exact Pv|exact I].
Qed.

Lemma NoDup_keys xs : (forall x, In x xs -> vars_of (fst x) <> []) -> NoDup (xvars xs) -> NoDup (map (@fst params tower) xs).
Proof.
  induction xs as [|x xs IH]; cbn; intros Ne N; [constructor|]. unfold xvars in N. cbn in N. constructor.
  - intros I. apply in_map_iff in I as (y & E & I). destruct (vars_of (fst x)) as [|v vs] eqn:V; [eapply Ne; [left; reflexivity|exact V]|].
    cbn in N. apply NoDup_cons_iff in N as [A _]. apply A. apply in_app_iff. right. apply in_concat.
    exists (vars_of (fst y)). split; [apply in_map_iff; eauto|]. rewrite E, V. left. reflexivity.
  - apply IH; [auto|]. eapply NoDup_app_tail. exact N.
Qed.

Lemma steps_false bs xs : forall bs', steps RFalse bs xs bs' ->
  exists new, bs' = bs ++ new /\ map fst new = map fst xs /\
    forall p b, In (p, b) new -> exists tw, In (p, tw) xs /\ b_towers b = [tw].
Proof.
  revert bs. induction xs as [|x xs IH]; cbn; intros bs bs' H.
  - subst. exists []. rewrite app_nil_r. split; [reflexivity|]. split; [reflexivity|]. intros p b [].
  - destruct H as (b1 & (k & a & ->) & H). destruct (IH _ _ H) as (new & -> & M & Q).
    exists ((fst x, mkBlock k a [snd x]) :: new). rewrite <- app_assoc. split; [reflexivity|]. cbn. split; [f_equal; exact M|].
    intros p b [E|I].
    + injection E as <- <-. exists (snd x). split; [left; destruct x; reflexivity|reflexivity].
    + destruct (Q p b I) as (tw & J & T). exists tw. auto.
Qed.

Lemma steps_true bs xs : forall bs', steps RTrue bs xs bs' -> NoDup (map fst xs) ->
  map fst bs' = map fst bs /\ (forall p tw, In (p, tw) xs -> In p (map fst bs)) /\
  (forall p tw, In (p, tw) xs -> exists b, find_block bs p = Some b /\
      find_block bs' p = Some (mkBlock (b_cls b) (b_approx b) (b_towers b ++ [tw]))) /\
  (forall p, ~ In p (map fst xs) -> find_block bs' p = find_block bs p).
Proof.
  revert bs. induction xs as [|[q t] xs IH]; cbn; intros bs bs' H N.
  - subst. repeat split; auto; intros p tw [].
  - destruct H as (b1 & ((b & Fb) & ->) & H). apply NoDup_cons_iff in N as [Nq N].
    destruct (IH _ _ H N) as (M & A & B & C). rewrite append_tower_keys in M, A. cbn in Fb.
    split; [exact M|]. split; [|split].
    + intros p tw [E|I]; [|eapply A; eauto]. injection E as <- <-. apply in_map_iff. exists (q, b). split; [reflexivity|]. apply find_block_In, Fb.
    + intros p tw [E|I].
      * injection E as <- <-. exists b. split; [exact Fb|]. cbn. rewrite C by exact Nq.
        rewrite find_append_tower, params_eqb_refl, Fb. reflexivity.
      * destruct (B p tw I) as (b2 & F1 & F2). cbn in F1. rewrite find_append_tower in F1.
        destruct (params_eqb q p) eqn:E; [|eauto]. apply params_eqb_spec in E. subst. exfalso. apply Nq.
        apply in_map_iff. exists (p, tw). auto.
    + intros p Np. rewrite C by (intros I; apply Np; right; exact I). cbn. rewrite find_append_tower.
      destruct (params_eqb q p) eqn:E; [|reflexivity]. apply params_eqb_spec in E. subst. exfalso. apply Np. left. reflexivity.
Qed.

(* ------------------------------------------------------------------------ *)
(** * All towers *)

Section Towers.
Variables (pr : program) (varlist : list nat) (bs : option nat) (c0 : coll).
Let user := registered (c_blocks c0).
Let linked := map fst (c_linked c0).
Hypothesis nodup : NoDup varlist.

(** State after the passes over [done]. *)
Definition passed (done : list (list linputs)) (c : coll) : Prop :=
  DK c /\ frame c0 c /\ exists new, c_blocks c = c_blocks c0 ++ new /\
    (forall v, In v varlist -> ~ In v user -> exists p b, In (p, b) new /\ In v (vars_of p)) /\
    forall p b, In (p, b) new ->
      vars_of p <> [] /\ (forall v, In v (vars_of p) -> In v varlist /\ ~ In v user) /\
      Forall2 (fun outs tw => tower_for pr linked varlist user bs outs p tw) done (b_towers b).

Lemma first_pass outs members c1 : DK c0 ->
  subgraph_of_losses (Match.Model.tg_graph (pr_graph pr)) outs = Ok members ->
  register_subgraph_layers pr varlist members user RFalse bs c0 = (c1, Ok tt) ->
  passed [outs] c1.
Proof.
  intros Dk Sg R. destruct (pass_steps _ _ _ _ _ _ _ _ (or_introl eq_refl) R) as (found & d & xs & A & B & S & F & D & K & V & N).
  split; [auto|]. split; [exact F|]. destruct (steps_false _ _ _ S) as (new & E & M & Q). exists new. split; [exact E|]. split.
  - intros v I U. specialize (V v I U). unfold xvars in V. apply in_concat in V as (vs & J & V).
    apply in_map_iff in J as ([p tw] & <- & J). cbn in V.
    assert (P : In p (map fst new)) by (rewrite M; apply in_map_iff; exists (p, tw); auto).
    apply in_map_iff in P as ([q b] & E' & P). cbn in E'. subst q. eauto.
  - intros p b I. destruct (Q p b I) as (tw & J & T). specialize (K p tw J).
    destruct (tower_data_about _ _ _ _ _ _ _ _ (find_records_ok _ _ _ _ A) B K) as [H1 H2].
    split; [exact H1|]. split; [exact H2|]. rewrite T. constructor; [|constructor]. exists members, found, d. auto.
Qed.

Lemma next_pass done outs members c c1 : passed done c ->
  subgraph_of_losses (Match.Model.tg_graph (pr_graph pr)) outs = Ok members ->
  register_subgraph_layers pr varlist members user RTrue bs c = (c1, Ok tt) ->
  passed (done ++ [outs]) c1.
Proof.
  intros (Dk & F0 & new & E & V0 & Q) Sg R.
  destruct (pass_steps _ _ _ _ _ _ _ _ (or_intror eq_refl) R) as (found & d & xs & A & B & S & F & D & K & V & N).
  specialize (N nodup). specialize (D Dk). split; [exact D|]. split; [eapply frame_trans; eauto|].
  assert (Ll : map fst (c_linked c) = linked) by (unfold linked; destruct F0 as (-> & _); reflexivity). rewrite Ll in B.
  assert (Ab : forall p tw, In (p, tw) xs -> vars_of p <> [] /\ forall v, In v (vars_of p) -> In v varlist /\ ~ In v user).
  { intros p tw I. eapply tower_data_about; [eapply find_records_ok, A|exact B|apply K, I]. }
  assert (Nk : NoDup (map fst xs)) by (apply NoDup_keys; [intros [p tw] I; apply (Ab _ _ I)|exact N]).
  destruct (steps_true _ _ _ S Nk) as (M & In1 & Up & Same).
  (* the old blocks are untouched *)
  assert (Old : forall p b, In (p, b) (c_blocks c0) -> ~ In p (map fst xs)).
  { intros p b I J. apply in_map_iff in J as ([q tw] & E' & J). cbn in E'. subst q.
    destruct (Ab _ _ J) as [Ne H]. destruct (vars_of p) as [|v vs] eqn:Vp; [congruence|].
    destruct (H v (or_introl eq_refl)) as [_ U]. apply U. unfold user. apply registered_spec.
    exists p, b. split; [exact I|]. rewrite Vp. left. reflexivity. }
  assert (Split : forall l1 l2 : list (params * block), map fst (c_blocks c1) = map fst l1 ++ map fst l2 ->
     exists n1 n2, c_blocks c1 = n1 ++ n2 /\ map fst n1 = map fst l1 /\ map fst n2 = map fst l2).
  { intros l1 l2 H. exists (firstn (List.length l1) (c_blocks c1)), (skipn (List.length l1) (c_blocks c1)).
    split; [symmetry; apply firstn_skipn|]. rewrite <- firstn_map, <- skipn_map, H.
    rewrite <- (map_length fst l1), firstn_app, skipn_app, Nat.sub_diag, firstn_all, skipn_all. cbn.
    rewrite app_nil_r. auto. }
  destruct (Split (c_blocks c0) new) as (n1 & n2 & En & M1 & M2); [rewrite M, E, map_app; reflexivity|].
  assert (Fk : forall p b, In (p, b) (c_blocks c1) -> find_block (c_blocks c1) p = Some b)
    by (intros p b I; apply find_block_key; assumption).
  assert (Fk0 : forall p b, In (p, b) (c_blocks c) -> find_block (c_blocks c) p = Some b)
    by (intros p b I; apply find_block_key; assumption).
  assert (N1 : n1 = c_blocks c0).
  { assert (Hs : forall p b, In (p, b) n1 -> find_block (c_blocks c0) p = Some b).
    { intros p b I. pose proof (Fk p b) as H. rewrite En in H at 1. specialize (H (in_or_app _ _ _ (or_introl I))).
      assert (J : In p (map fst (c_blocks c0))) by (rewrite <- M1; apply in_map_iff; exists (p, b); auto).
      apply in_map_iff in J as ([q b'] & Eq & J). cbn in Eq. subst q.
      rewrite (Same p (Old p b' J)) in H. rewrite (Fk0 p b') in H by (rewrite E; apply in_app_iff; left; exact J).
      injection H as <-. pose proof (Fk0 p b') as H. rewrite E in H. specialize (H (in_or_app _ _ _ (or_introl J))).
      rewrite find_app in H. destruct (find_block (c_blocks c0) p) eqn:Fb; [congruence|].
      exfalso. eapply find_block_None; eauto. }
    assert (Nd : NoDup (map fst (c_blocks c0))).
    { destruct Dk as [Nd _]. rewrite E, map_app in Nd. clear - Nd.
      induction (map fst (c_blocks c0)) as [|x l IH]; [constructor|]. cbn in Nd. apply NoDup_cons_iff in Nd as [X Nd].
      constructor; [intros I; apply X, in_app_iff; left; exact I|auto]. }
    assert (Fc : forall l : list (params * block), NoDup (map fst l) -> forall p b, In (p, b) l -> find_block l p = Some b).
    { induction l as [|[k b'] l IH]; [intros _ p b []|]. cbn. intros H p b I. apply NoDup_cons_iff in H as [X H].
      destruct I as [I|I].
      - injection I as -> ->. rewrite params_eqb_refl. reflexivity.
      - destruct (params_eqb k p) eqn:Ek; [|auto]. apply params_eqb_spec in Ek. subst k. exfalso. apply X.
        apply in_map_iff. exists (p, b). auto. }
    specialize (Fc _ Nd). clear - Hs M1 Fc. revert n1 M1 Hs.
    assert (G : forall l n1, map fst n1 = map fst l -> (forall p b, In (p, b) l -> find_block (c_blocks c0) p = Some b) ->
       (forall p b, In (p, b) n1 -> find_block (c_blocks c0) p = Some b) -> n1 = l).
    { induction l as [|[p b] l IH]; intros [|[q b'] n1] Em H1 H2; try discriminate; [reflexivity|].
      cbn in Em. injection Em as -> Em. f_equal.
      - f_equal. specialize (H1 p b (or_introl eq_refl)). specialize (H2 p b' (or_introl eq_refl)). congruence.
      - apply IH; [exact Em|intros; apply H1; right; assumption|intros; apply H2; right; assumption]. }
    intros n1 Em Hs. apply (G (c_blocks c0)); auto. }
  subst n1. exists n2. split; [exact En|]. split.
  - intros v I U. destruct (V0 v I U) as (p & b & J & Vp).
    assert (P : In p (map fst n2)) by (rewrite M2; apply in_map_iff; exists (p, b); auto).
    apply in_map_iff in P as ([q b'] & Eq & P). cbn in Eq. subst q. eauto.
  - intros p b I.
    assert (J : In p (map fst new)) by (rewrite <- M2; apply in_map_iff; exists (p, b); auto).
    apply in_map_iff in J as ([q b'] & Eq & J). cbn in Eq. subst q. destruct (Q p b' J) as (Ne & Hv & Tw).
    split; [exact Ne|]. split; [exact Hv|].
    (* p is visited in this pass *)
    destruct (vars_of p) as [|v vs] eqn:Vp; [congruence|]. destruct (Hv v (or_introl eq_refl)) as [Iv Uv].
    specialize (V v Iv Uv). unfold xvars in V. apply in_concat in V as (ws & X & V).
    apply in_map_iff in X as ([p' tw] & <- & X). cbn in V.
    assert (Pp : p' = p).
    { pose proof (In1 _ _ X) as Y. apply in_map_iff in Y as ([q b2] & Eq & Y). cbn in Eq. subst q.
      apply (DK_unique c p' p b2 b' v Dk Y); [|exact V|].
      - rewrite E. apply in_app_iff. right. exact J.
      - rewrite Vp. left. reflexivity. }
    subst p'. destruct (Up _ _ X) as (b2 & F1 & F2).
    rewrite (Fk0 p b') in F1 by (rewrite E; apply in_app_iff; right; exact J). injection F1 as <-.
    rewrite (Fk p b) in F2 by (rewrite En; apply in_app_iff; right; exact I). injection F2 as ->. cbn.
    apply Forall2_app; [exact Tw|]. constructor; [|constructor]. exists members, found, d. auto.
Qed.

Lemma later_passes towers : forall done c c1, passed done c ->
  register_towers pr varlist user bs towers false c = (c1, Ok tt) -> passed (done ++ towers) c1.
Proof.
  induction towers as [|outs towers IH]; cbn [register_towers]; intros done c c1 P R.
  - injection R as <-. rewrite app_nil_r. exact P.
  - apply mbind_ok in R as (members & c2 & A & R). injection A as <- A.
    apply mbind_ok in R as ([] & c3 & B & R). change (outs :: towers) with ([outs] ++ towers). rewrite app_assoc.
    eapply IH; [eapply next_pass; eauto|exact R].
Qed.
End Towers.

Lemma transpose_nth n : forall l i, i < n -> nth i (transpose_losses n l) [] =
  concat (map (fun xs => match nth_error xs i with Some x => [x] | None => [] end) l).
Proof.
  induction n as [|n IH]; intros l i H; [lia|]. cbn. destruct i as [|i].
  - f_equal. apply map_ext. intros [|x xs]; reflexivity.
  - rewrite IH by lia. rewrite map_map. f_equal. apply map_ext. intros [|x xs]; cbn; [destruct i|]; reflexivity.
Qed.
Lemma transpose_length n : forall l, List.length (transpose_losses n l) = n.
Proof. induction n as [|n IH]; intros l; cbn; [reflexivity|f_equal; apply IH]. Qed.
Lemma Forall2_nth {A B} (P : A -> B -> Prop) l l' d i y :
  Forall2 P l l' -> nth_error l' i = Some y -> i < List.length l -> P (nth i l d) y.
Proof.
  intros H. revert i. induction H as [|x z l l' Hx H IH]; intros i E L; cbn in L; [lia|].
  destruct i as [|i]; cbn in E |- *; [injection E as <-; exact Hx|apply IH; [exact E|lia]].
Qed.
Lemma Forall2_len {A B} (P : A -> B -> Prop) l l' : Forall2 P l l' -> List.length l = List.length l'.
Proof. induction 1; cbn; congruence. Qed.

Lemma register_layers_spec pr shape h loss_in varlist bs c' ks :
  let c := after shape h initial in
  NoDup varlist -> register_layers pr loss_in varlist bs c = (c', Ok ks) ->
  exists new, c_blocks c' = c_blocks c ++ new /\ ks = map fst new /\
    (c_losses c' = c_losses c /\ c_linked c' = c_linked c /\ c_def c' = c_def c) /\
    (forall v, In v varlist -> exists! p, owns c' p v) /\
    forall p b, In (p, b) new ->
      (forall v, In v (vars_of p) -> In v varlist /\ ~ In v (registered (c_blocks c))) /\
      (forall ts, In ts (towers_by_loss c) -> List.length ts = List.length (b_towers b)) /\
      forall i tw, nth_error (b_towers b) i = Some tw ->
        tower_for pr (map fst (c_linked c)) varlist (registered (c_blocks c)) bs (tower_outs loss_in c i) p tw.
Proof.
  intros c Nv R. assert (Dk : DK c) by apply DK_after.
  unfold register_layers in R. apply mbind_ok in R as (c0 & c1 & E & R). injection E as <- <-.
  destruct (losses c) as [|x0 xs0] eqn:Ls; [discriminate|].
  destruct (map (map loss_in) (towers_by_loss c)) as [|l0 ls] eqn:Il; [discriminate|].
  destruct (negb _) eqn:Fb; [discriminate|]. apply negb_false_iff in Fb. rewrite forallb_forall in Fb.
  set (n := List.length l0) in *.
  assert (Len : forall ts, In ts (towers_by_loss c) -> List.length ts = n).
  { intros ts I. rewrite <- (map_length loss_in). apply Nat.eqb_eq, Fb. rewrite <- Il. apply in_map, I. }
  apply mbind_ok in R as ([] & c2 & A & R). apply mbind_ok in R as (c3 & c4 & E & R). injection E as <- <-.
  injection R as Ec Ek. subst c2.
  assert (Hn : n <> 0).
  { intros Z. assert (Hz : forall l : list (list nat), (forall ts, In ts l -> List.length ts = 0) -> concat l = []).
    { induction l as [|t l IH]; [reflexivity|]. intros H. cbn. rewrite IH by (intros; apply H; right; assumption).
      specialize (H t (or_introl eq_refl)). destruct t; [reflexivity|discriminate]. }
    unfold losses in Ls. rewrite Hz in Ls; [discriminate|]. intros ts I. rewrite (Len ts I). exact Z. }
  set (groups := transpose_losses n (l0 :: ls)) in *.
  assert (P : passed pr varlist bs c groups c').
  { assert (Lg : List.length groups = n) by apply transpose_length. destruct groups as [|outs groups]; [cbn in Lg; lia|].
    cbn [register_towers] in A. apply mbind_ok in A as (members & c2 & A1 & A). injection A1 as <- A1.
    apply mbind_ok in A as ([] & c3 & A2 & A). change (outs :: groups) with ([outs] ++ groups).
    eapply later_passes; [exact Nv|eapply first_pass; eauto|exact A]. }
  destruct P as (Dk' & (F1 & F2 & F3) & new & E & V & Q). exists new. split; [exact E|]. split; [|split; [auto|split]].
  - subst ks. rewrite E, map_app, filter_app.
    replace (filter _ (map fst (c_blocks c))) with (@nil params).
    2:{ symmetry. apply filter_nil_iff. intros p I. apply negb_false_iff. apply existsb_exists. exists p.
        split; [exact I|apply params_eqb_refl]. }
    cbn. destruct Dk' as [Nd _]. rewrite E, map_app in Nd. clear - Nd.
    assert (G : forall l, (forall p, In p l -> ~ In p (map fst (c_blocks c))) ->
       filter (fun p => negb (existsb (params_eqb p) (map fst (c_blocks c)))) l = l).
    { induction l as [|p l IH]; [reflexivity|]. intros H. cbn.
      assert (Ex : existsb (params_eqb p) (map fst (c_blocks c)) = false).
      { apply existsb_false. intros q I. destruct (params_eqb p q) eqn:Eq; [|reflexivity]. apply params_eqb_spec in Eq.
        subst q. exfalso. eapply H; [left; reflexivity|exact I]. }
      rewrite Ex. cbn. f_equal. apply IH. intros q I. apply H. right. exact I. }
    apply G. intros p I J. revert Nd I J. generalize (map fst (c_blocks c)). intros l Nd I J.
    induction l as [|x l IH]; [destruct J|]. cbn in Nd. apply NoDup_cons_iff in Nd as [X Nd].
    destruct J as [->|J]; [apply X, in_app_iff; right; exact I|auto].
  - intros v I.
    assert (O : exists p, owns c' p v).
    { destruct (in_dec Nat.eq_dec v (registered (c_blocks c))) as [U|U].
      - apply registered_spec in U as (p & b & J & K). exists p, b. rewrite E. split; [apply in_app_iff; left; exact J|exact K].
      - destruct (V v I U) as (p & b & J & K). exists p, b. rewrite E. split; [apply in_app_iff; right; exact J|exact K]. }
    destruct O as (p & O). exists p. split; [exact O|]. intros q (b' & J & K). destruct O as (b & J' & K').
    exact (DK_unique _ _ _ _ _ _ Dk' J' J K' K).
  - intros p b I. destruct (Q p b I) as (_ & H1 & H2). split; [exact H1|].
    assert (Lb : List.length (b_towers b) = n) by (rewrite <- (Forall2_len _ _ _ H2); apply transpose_length).
    split; [intros ts J; rewrite Lb; apply Len, J|]. intros i tw Hi.
    assert (Li : i < n) by (rewrite <- Lb; apply nth_error_Some; congruence).
    pose proof (Forall2_nth _ _ _ [] _ _ H2 Hi) as T. unfold groups in T. rewrite transpose_length in T. specialize (T Li).
    rewrite transpose_nth in T by exact Li. cbn beta in T.
    replace (tower_outs loss_in c i) with
      (concat (map (fun xs : list linputs => match nth_error xs i with Some x => [x] | None => [] end) (l0 :: ls))); [exact T|].
    rewrite <- Il. unfold tower_outs. rewrite map_map. f_equal. apply map_ext. intros ts. rewrite nth_error_map.
    destruct (nth_error ts i); reflexivity.
Qed.
