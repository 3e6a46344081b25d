(** Only the names, shapes and depths of tensors matter; every registered layer but one kind can
    be named; the constants. *)
From Coq Require Import String Ascii List Arith Bool Lia QArith Reals Permutation.
From Verif.Base Require Import Py.
From Verif.Names Require Import Model Spec StringProofs ScopeProofs VarProofs InvProofs.
Import ListNotations.
Open Scope string_scope.
Open Scope nat_scope.
Open Scope list_scope.

Local Arguments String.append : simpl nomatch.
Local Arguments slash : simpl never.

(** Induction over nested parameters. *)
Lemma param_rec' (P : param -> Prop) :
  P PNone -> (forall n, P (PInt n)) -> (forall b, P (PBool b)) -> (forall s, P (PStr s)) ->
  (forall o, P (PObj o)) -> (forall l, Forall P l -> P (PSeq l)) -> forall p, P p.
Proof.
  intros H1 H2 H3 H4 H5 H6. fix IH 1. intros [|n|b|s|o|l];
    [apply H1|apply H2|apply H3|apply H4|apply H5|]. apply H6.
  induction l as [|a l IHl]; constructor; [apply IH|exact IHl].
Qed.

Lemma mapm_ext {A B} (f g : A -> res B) l : (forall a, In a l -> f a = g a) -> mapm f l = mapm g l.
Proof.
  induction l as [|a l IH]; cbn; intros H; auto. rewrite (H a), IH; simpl; auto.
Qed.
Lemma mapm_map {A B C} (h : A -> B) (f : B -> res C) l : mapm f (map h l) = mapm (fun a => f (h a)) l.
Proof. induction l as [|a l IH]; cbn; auto. rewrite IH. reflexivity. Qed.
Lemma sname_seq w l : scope_string_from_name w (PSeq l) =
  do ss <- mapm (scope_string_from_name w) l ; Ok (String.concat "__" ss).
Proof.
  cbn. f_equal. induction l as [|a l IH]; cbn; auto. rewrite IH. reflexivity.
Qed.

Section Relabel.
  Variables (r : nat -> nat) (w w' : world).
  Hypothesis S : same_graph r w w'.

  Local Notation re := (re_param r).

  Let N t : tname w' (r t) = tname w t. Proof. apply S. Qed.
  Let H t : tshape w' (r t) = tshape w t. Proof. apply S. Qed.
  Let D t : thot w' (r t) = thot w t. Proof. apply S. Qed.
  Let Z s : sanitize w' s = sanitize w s. Proof. apply S. Qed.
  Let F q : repr_float w' q = repr_float w q. Proof. apply S. Qed.

  Lemma re_sname p : scope_string_from_name w' (re p) = scope_string_from_name w p.
  Proof.
    induction p using param_rec'; cbn [re_param]; auto.
    - destruct o; cbn; auto. rewrite N, Z. reflexivity.
    - rewrite !sname_seq, mapm_map. f_equal. apply mapm_ext. rewrite Forall_forall in H0. auto.
  Qed.
  Lemma re_is_int p : is_int (re p) = is_int p.
  Proof. destruct p; reflexivity. Qed.
  Lemma re_part p : name_part w' (re p) = name_part w p.
  Proof.
    destruct p; cbn [re_param name_part]; auto.
    - destruct o; cbn [re_obj].
      + exact (re_sname (PObj (OTensor t))).
      + rewrite <- (re_sname (PSeq _)). cbn [re_param]. rewrite !map_map. reflexivity.
    - assert (E : forallb is_int (map re l) = forallb is_int l).
      { induction l as [|a l IH]; cbn; auto. rewrite IH, re_is_int. reflexivity. }
      rewrite E. destruct (forallb is_int l) eqn:Fl.
      + do 2 f_equal. rewrite map_map. apply map_ext_in. intros a I.
        rewrite forallb_forall in Fl. specialize (Fl a I). destruct a; try discriminate; reflexivity.
      + exact (re_sname (PSeq l)).
  Qed.
  Lemma re_params ps : scope_string_from_params w' (map re ps) = scope_string_from_params w ps.
  Proof.
    unfold scope_string_from_params. rewrite mapm_map. f_equal. apply mapm_ext. intros; apply re_part.
  Qed.
  Lemma re_pobjs l : pobjs (map (re_obj r) l) = map re (pobjs l).
  Proof. unfold pobjs. rewrite !map_map. reflexivity. Qed.
  Lemma re_pobjss l : pobjss (map (map (re_obj r)) l) = map re (pobjss l).
  Proof.
    unfold pobjss. rewrite !map_map. apply map_ext. intros a. cbn [re_param]. rewrite re_pobjs. reflexivity.
  Qed.
  Lemma re_pints l : re (pints l) = pints l.
  Proof. unfold pints. cbn [re_param]. rewrite map_map. reflexivity. Qed.
  Lemma re_points l : re (points l) = points l.
  Proof. destruct l; cbn [points]; auto. apply re_pints. Qed.
  Lemma re_postr l : re (postr l) = postr l.
  Proof. destruct l; reflexivity. Qed.
  Lemma re_pouses l : re (pouses l) = pouses l.
  Proof. destruct l; reflexivity. Qed.
  Lemma re_potensor l : potensor (option_map r l) = re (potensor l).
  Proof. destruct l; reflexivity. Qed.
  Lemma re_conv_params i cv :
    conv_input_params (map (re_obj r) i) (re_conv r cv) = map re (conv_input_params i cv).
  Proof.
    unfold conv_input_params. rewrite map_app, re_pobjs. cbn [map re_conv cv_filter cv_strides cv_padding
      cv_dilation cv_format cv_bias cv_mask re_param].
    rewrite re_pints, !re_points, re_postr, re_potensor. reflexivity.
  Qed.

  Lemma re_scope f : var_scope w' (re_factor r f) = var_scope w f.
  Proof.
    assert (K : forall pre ps ps', ps' = map re ps ->
      (do s <- scope_string_from_params w' ps' ; Ok (pre ++ s)%string) =
      (do s <- scope_string_from_params w ps ; Ok (pre ++ s)%string)).
    { intros pre ps ps' ->. rewrite re_params. reflexivity. }
    destruct f; cbn [re_factor var_scope]; apply K; rewrite ?map_app, ?re_pobjs, ?re_pobjss;
      rewrite <- ?concat_map, ?re_pobjs; cbn [map re_param];
      rewrite ?re_pobjs, ?re_pobjss, ?re_pints, ?re_points, ?re_pouses; auto.
    - apply re_conv_params.
    - apply re_conv_params.
  Qed.

  Lemma re_oshape o : obj_shape w' (re_obj r o) = obj_shape w o.
  Proof.
    destruct o as [t|[|t ts]]; cbn; rewrite ?H; auto. do 4 f_equal. rewrite map_map.
    apply map_ext. intros a. rewrite H. reflexivity.
  Qed.
  Lemma re_ohot o : obj_hot w' (re_obj r o) = obj_hot w o.
  Proof. destruct o as [t|[|t ts]]; cbn; auto. Qed.
  Lemma head_map {A B} (h : A -> B) l : head (map h l) = do a <- head l ; Ok (h a).
  Proof. destruct l; reflexivity. Qed.
  Lemma head2_map {A B} (h : A -> B) l : head2 (map (map h) l) = do a <- head2 l ; Ok (h a).
  Proof. destruct l as [|[|a l]]; reflexivity. Qed.
  Lemma re_shape f : cov_shape w' (re_factor r f) = cov_shape w f.
  Proof.
    destruct f; cbn [re_factor cov_shape]; rewrite ?head_map, ?head2_map; try reflexivity;
      try (destruct (head2 _) as [o|]; cbn [bind]; rewrite ?re_oshape, ?re_ohot; reflexivity).
    - destruct (head grads) as [g|]; cbn [bind]; auto. rewrite mapm_map. f_equal. apply mapm_ext.
      intros; apply re_oshape.
    - destruct (head grads) as [g|]; cbn [bind]; auto. apply re_oshape.
    - destruct (head inputs) as [i|]; cbn [bind]; auto. rewrite re_oshape.
      destruct (obj_shape w i) as [s|]; cbn [bind]; auto. destruct (dim 1 s); cbn [bind]; auto.
      destruct (head2 grads) as [o|]; cbn [bind]; rewrite ?re_oshape; reflexivity.
    - destruct (head inputs) as [i|]; cbn [bind]; auto. rewrite re_oshape.
      destruct (obj_shape w i) as [s|]; cbn [bind]; auto. destruct has_shift; cbn [bind]; auto.
      destruct (head2 grads) as [o|]; cbn [bind]; rewrite ?re_oshape; reflexivity.
  Qed.
  Lemma re_vec f : vec_shape w' (re_factor r f) = vec_shape w f.
  Proof.
    destruct f; try reflexivity. cbn [re_factor vec_shape]. rewrite head2_map.
    destruct (head2 _) as [o|]; cbn [bind]; rewrite ?re_oshape; reflexivity.
  Qed.

  Lemma re_reqs k scope f : cov_reqs k w' scope (re_factor r f) = cov_reqs k w scope f.
  Proof.
    unfold cov_reqs. rewrite re_scope, re_shape.
    destruct (var_scope w f) as [vs|]; cbn [bind]; auto.
    destruct (cov_shape w f) as [s|]; cbn [bind]; auto.
    destruct f; reflexivity.
  Qed.

  Lemma re_damping id : damping_string w' (map (re_id r) id) = damping_string w id.
  Proof.
    unfold damping_string. f_equal. rewrite map_map. apply map_ext. intros [| | |t]; cbn; auto.
    rewrite N, Z. reflexivity.
  Qed.
  Lemma re_dense k here s g : dense_reqs k w' here s (re_regs r g) = dense_reqs k w here s g.
  Proof.
    unfold dense_reqs, re_regs. cbn [r_matpower r_cholesky r_cholinv]. rewrite !map_map.
    f_equal; [|f_equal]; apply map_ext; intros a; unfold matpower_name; cbn [fst snd];
      rewrite ?re_damping, ?F; reflexivity.
  Qed.
  Lemma re_multi k here s v g : multi_reqs k w' here s v (re_regs r g) = multi_reqs k w here s v g.
  Proof.
    unfold multi_reqs, re_regs. cbn [r_opt1 r_opt2]. rewrite !map_map.
    f_equal; f_equal; apply map_ext; intros a; unfold opt1_reqs, opt2_reqs;
      rewrite ?re_damping; reflexivity.
  Qed.
  Lemma re_sua k scope here c g : sua_reqs k w' scope here c (re_regs r g) = sua_reqs k w scope here c g.
  Proof.
    unfold sua_reqs, re_regs. cbn [r_matpower]. rewrite mapm_map. f_equal. apply mapm_ext. intros p _.
    unfold sua_req, power_tag, matpower_name. cbn [fst snd]. rewrite re_damping, F. reflexivity.
  Qed.
  Lemma re_diag f : diagonal_factor (re_factor r f) = diagonal_factor f.
  Proof. destruct f; reflexivity. Qed.

  Lemma re_inv k scope f g :
    inv_reqs k w' scope (re_factor r f, re_regs r g) = inv_reqs k w scope (f, g).
  Proof.
    unfold inv_reqs. rewrite re_diag. destruct (diagonal_factor f); auto.
    assert (Q : (do vs <- var_scope w' (re_factor r f); do s <- cov_shape w' (re_factor r f);
                 Ok (dense_reqs k w' (slash scope vs) s (re_regs r g))) =
                (do vs <- var_scope w f; do s <- cov_shape w f; Ok (dense_reqs k w (slash scope vs) s g))).
    { rewrite re_scope, re_shape. destruct (var_scope w f) as [vs|]; cbn [bind]; auto.
      destruct (cov_shape w f) as [s|]; cbn [bind]; auto. rewrite re_dense. reflexivity. }
    destruct f; try exact Q; clear Q.
    - rewrite re_scope. cbn [re_factor].
      match goal with |- context [var_scope w ?f] => destruct (var_scope w f) as [vs|]; cbn [bind]; auto end.
      destruct (in_channels filter) as [c|]; cbn [bind]; auto. apply re_sua.
    - rewrite re_scope, re_shape, re_vec. cbn [re_factor].
      match goal with |- context [var_scope w ?f] => destruct (var_scope w f) as [vs|]; cbn [bind]; auto end.
      match goal with |- context [cov_shape w ?f] => destruct (cov_shape w f) as [s|]; cbn [bind]; auto end.
      rewrite re_dense.
      assert (O : (r_opt1 (re_regs r g) = [] <-> r_opt1 g = []) /\ (r_opt2 (re_regs r g) = [] <-> r_opt2 g = [])).
      { unfold re_regs; cbn [r_opt1 r_opt2].
        destruct (r_opt1 g), (r_opt2 g); cbn; repeat split; intros; auto; discriminate. }
      assert (M : (do v <- vec_shape w (FCMulti tensors uses bias dt1);
                   Ok (multi_reqs k w' (slash scope vs) s v (re_regs r g))) =
                  (do v <- vec_shape w (FCMulti tensors uses bias dt1);
                   Ok (multi_reqs k w (slash scope vs) s v g))).
      { destruct (vec_shape w _); cbn [bind]; auto. rewrite re_multi. reflexivity. }
      rewrite M. destruct O as [O1 O2].
      destruct (r_opt1 g) as [|a l]; destruct (r_opt1 (re_regs r g)) as [|a' l'];
        try reflexivity; try (destruct O1 as [O1 O1']; first [discriminate (O1 eq_refl)|discriminate (O1' eq_refl)]).
      destruct (r_opt2 g) as [|b m]; destruct (r_opt2 (re_regs r g)) as [|b' m'];
        try reflexivity; try (destruct O2 as [O2 O2']; first [discriminate (O2 eq_refl)|discriminate (O2' eq_refl)]).
  Qed.

  Lemma relabelled k scope frs st st' : make_vars k w scope frs st = Ok st' ->
    make_vars k w' scope (map (fun fr => (re_factor r (fst fr), re_regs r (snd fr))) frs) st = Ok st'.
  Proof.
    intros M.
    apply make_vars_asks in M as (crqs & irqs & mid & A1 & A2 & A3 & A4). apply make_vars_asks.
    exists crqs, irqs, mid. repeat split; auto.
    - rewrite <- A1, map_map. cbn [fst]. rewrite !mapm_map. apply mapm_ext. intros [f g] I.
      apply re_reqs.
    - rewrite <- A3, mapm_map. apply mapm_ext. intros [f g] I. apply re_inv.
  Qed.
End Relabel.

(* ------------------------------------------------------------------------ *)
(** * Every name can be made *)

Lemma sname_tensors w ts : exists s, scope_string_from_name w (PSeq (pobjs (map OTensor ts))) = Ok s.
Proof.
  rewrite sname_seq. destruct (mapm_total (scope_string_from_name w) (pobjs (map OTensor ts))) as (ss & E).
  - intros p I. unfold pobjs in I. rewrite map_map in I. apply in_map_iff in I as (t & <- & _). cbn. eauto.
  - rewrite E. cbn [bind]. eauto.
Qed.
Lemma part_tensors w ts : exists s, name_part w (PSeq (pobjs (map OTensor ts))) = Ok s.
Proof.
  cbn [name_part]. destruct (forallb _ _); [eauto|]. apply sname_tensors.
Qed.
Lemma part_tensorss w gs : exists s, name_part w (PSeq (pobjss (map (map OTensor) gs))) = Ok s.
Proof.
  cbn [name_part]. destruct (forallb _ _); [eauto|]. rewrite sname_seq.
  destruct (mapm_total (scope_string_from_name w) (pobjss (map (map OTensor) gs))) as (ss & E).
  - intros p I. unfold pobjss in I. rewrite map_map in I. apply in_map_iff in I as (t & <- & _).
    apply sname_tensors.
  - rewrite E. cbn [bind]. eauto.
Qed.
Lemma part_obj w o : exists s, name_part w (PObj o) = Ok s.
Proof.
  destruct o; cbn [name_part].
  - cbn. eauto.
  - destruct (sname_tensors w ts) as (s & E). unfold pobjs in E. rewrite map_map in E. eauto.
Qed.
Lemma part_ints w l : exists s, name_part w (pints l) = Ok s.
Proof.
  unfold pints. cbn [name_part]. rewrite (proj2 (forallb_forall is_int (map PInt l))); [eauto|].
  intros p I. apply in_map_iff in I as (n & <- & _). reflexivity.
Qed.
Lemma part_oints w l : exists s, name_part w (points l) = Ok s.
Proof. destruct l; cbn [points]; [apply part_ints|cbn; eauto]. Qed.
Lemma params_total w ps : (forall p, In p ps -> exists s, name_part w p = Ok s) ->
  exists s, scope_string_from_params w ps = Ok s.
Proof.
  intros P. unfold scope_string_from_params. destruct (mapm_total _ _ P) as (ss & E). rewrite E. cbn [bind]. eauto.
Qed.
Lemma conv_params_total w i cv : exists s, scope_string_from_params w (conv_input_params i cv) = Ok s.
Proof.
  apply params_total. unfold conv_input_params. intros p I. apply in_app_or in I as [I|I].
  - apply in_map_iff in I as (o & <- & _). apply part_obj.
  - cbn in I. destruct I as [<-|[<-|[<-|[<-|[<-|[<-|[<-|[]]]]]]]];
      first [apply part_ints|apply part_oints|idtac]; try (cbn; eauto).
    + destruct (cv_format cv); cbn; eauto.
    + destruct (cv_mask cv); cbn; eauto.
Qed.

Lemma named w f :
  match f with
  | NaiveFull g b => (exists gs, g = map (map OTensor) gs) /\ (exists t, b = PObj (OTensor t))
  | NaiveDiagonal g b => (exists gs, g = map OTensor gs) /\ (exists t, b = PObj (OTensor t))
  | ScaleShift _ i g _ _ _ => (exists is_, i = map OTensor is_) /\ (exists gs, g = map (map OTensor) gs)
  | _ => True
  end -> exists vs, var_scope w f = Ok vs.
Proof.
  intros P.
  assert (K : forall pre ps, (exists s, scope_string_from_params w ps = Ok s) ->
    exists vs, (do s <- scope_string_from_params w ps ; Ok (pre ++ s)%string) = Ok vs).
  { intros pre ps (s & ->). cbn [bind]. eauto. }
  assert (O : forall l p, In p (pobjs l) -> exists s, name_part w p = Ok s).
  { intros l p I. apply in_map_iff in I as (o & <- & _). apply part_obj. }
  destruct f; cbn [var_scope]; apply K; try apply conv_params_total; apply params_total; intros p I;
    try (apply in_app_or in I as [I|I]); try (eapply O; eassumption).
  - destruct P as [(gs & ->) (t & ->)]. destruct I as [<-|[<-|[]]]; [apply part_tensorss|apply part_obj].
  - destruct P as [(gs & ->) (t & ->)]. destruct I as [<-|[<-|[]]]; [apply part_tensors|apply part_obj].
  - destruct P as [(is_ & ->) (gs & ->)].
    destruct I as [<-|[<-|[<-|[<-|[<-|[<-|[]]]]]]];
      first [apply part_tensors|apply part_tensorss|apply part_ints|apply part_oints|cbn; eauto].
  - destruct I as [<-|[]]. cbn. eauto.
  - destruct I as [<-|[<-|[]]]; [apply part_ints|cbn; eauto].
  - destruct I as [<-|[<-|[]]]; [destruct uses; cbn; eauto|cbn; eauto].
Qed.
