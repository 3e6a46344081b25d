(** Proofs for the tensor area. *)
From Coq Require Import List Arith ZArith Lia Bool Reals Lra.
From Verif.Base Require Import Py ListFacts.
From Verif.Tensors Require Import Model Spec.
Import ListNotations.

(* ---------------------------------------------------------------- *)
(** * columns *)
Lemma size_app a b : size (a ++ b) = size a * size b.
Proof. unfold size. induction a as [|x a IH]; simpl; [lia|]. rewrite IH. lia. Qed.

Lemma reshape_column {A} (t : tensor A) :
  reshape_infer t [1] = Ok (mkT [length (t_data t); 1] (t_data t)).
Proof.
  unfold reshape_infer. simpl size. change (1 =? 0) with false. cbv iota.
  rewrite Nat.mod_1_r. cbn [Nat.eqb]. rewrite Nat.div_1_r. reflexivity.
Qed.

Lemma sequence_columns {A} (ts : list (tensor A)) :
  sequence (map (fun t => reshape_infer t [1]) ts) =
  Ok (map (fun t => mkT [length (t_data t); 1] (t_data t)) ts).
Proof.
  induction ts as [|t ts IH]; auto. cbn [map sequence].
  rewrite reshape_column. cbn [bind]. rewrite IH. reflexivity.
Qed.

Lemma sum_lengths {A} (ts : list (list A)) :
  fold_right Nat.add 0 (map (@length A) ts) = length (concat ts).
Proof. induction ts; simpl; auto. rewrite app_length. lia. Qed.

Lemma concat0_columns {A} (ls : list (list A)) :
  ls <> [] ->
  concat0 (map (fun l => mkT [length l; 1] l) ls) = Ok (mkT [length (concat ls); 1] (concat ls)).
Proof.
  intros Hne. set (g := fun l : list A => mkT [length l; 1] l).
  assert (H1 : map head_dim (map g ls) = map (@length A) ls) by (rewrite map_map; reflexivity).
  assert (H2 : map t_data (map g ls) = ls) by (rewrite map_map; apply map_id).
  rewrite <- sum_lengths, <- H1. rewrite <- H2 at 3.
  destruct ls as [|x ls]; [congruence|].
  unfold concat0. cbn [map].
  assert (F : forallb (fun u => negb (shape_eqb (t_shape u) []) &&
                        shape_eqb (trailing u) (trailing (g x))) (g x :: map g ls) = true).
  { apply forallb_forall. intros u Hu. change (g x :: map g ls) with (map g (x :: ls)) in Hu.
    apply in_map_iff in Hu as (y & <- & _). reflexivity. }
  rewrite F. reflexivity.
Qed.

Lemma tensors_to_column_flat {A} (x : tens_or_list A) :
  x <> Many [] ->
  tensors_to_column x = Ok (mkT [length (flat x); 1] (flat x)).
Proof.
  destruct x as [t|ts]; intros Hne; cbn [tensors_to_column flat].
  - apply reshape_column.
  - rewrite sequence_columns. cbn [bind].
    assert (E : map (fun t : tensor A => mkT [length (t_data t); 1] (t_data t)) ts =
                map (fun l => mkT [length l; 1] l) (map t_data ts)) by (rewrite map_map; reflexivity).
    rewrite E. apply concat0_columns. destruct ts; [congruence|discriminate].
Qed.

Lemma tensors_to_column_empty {A} : tensors_to_column (@Many A []) = Raise ValueError.
Proof. reflexivity. Qed.

Lemma slice_column {A} (data : list A) n offset sz :
  n = length data -> offset + sz <= n ->
  slice0 offset (offset + sz) (mkT [n; 1] data) =
  mkT [sz; 1] (firstn sz (skipn offset data)).
Proof.
  intros -> H. unfold slice0. cbn [head_dim t_shape hd trailing tl size fold_right t_data].
  rewrite Nat.min_l by lia. replace (offset + sz - offset) with sz by lia.
  rewrite !Nat.mul_1_r. reflexivity.
Qed.

Lemma split_column_spec {A} (shapes : list (list nat)) offset (data : list A) :
  offset + fold_right Nat.add 0 (map size shapes) <= length data ->
  exists ts,
    split_column shapes offset (mkT [length data; 1] data) = Ok ts /\
    map t_shape ts = shapes /\ (forall t, In t ts -> wf t) /\
    concat (map t_data ts) =
      firstn (fold_right Nat.add 0 (map size shapes)) (skipn offset data).
Proof.
  revert offset; induction shapes as [|sh shapes IH]; intros offset H; cbn [split_column].
  - exists []. repeat split; auto. intros t [].
  - cbn [map fold_right] in H.
    rewrite slice_column by lia.
    assert (Hl : length (firstn (size sh) (skipn offset data)) = size sh).
    { rewrite firstn_length, skipn_length. lia. }
    unfold reshape. cbn [t_data]. rewrite Hl, Nat.eqb_refl. cbn [bind].
    destruct (IH (offset + size sh)) as (ts & E & Hs & Hw & Hc); [lia|].
    rewrite E. cbn [bind]. eexists. split; [reflexivity|].
    cbn [map t_shape t_data concat fold_right]. repeat split.
    + f_equal; auto.
    + intros t [<-|Ht]; auto.
    + rewrite Hc.
      set (m := fold_right Nat.add 0 (map size shapes)) in *.
      assert (Hd : skipn (offset + size sh) data = skipn (size sh) (skipn offset data)).
      { clear. revert data; induction offset as [|o IHo]; intros data; [reflexivity|].
        destruct data; simpl; [destruct (size sh); reflexivity|apply IHo]. }
      rewrite Hd. generalize (skipn offset data) as l. intros l. clear.
      revert l; induction (size sh) as [|k IHk]; intros l; [reflexivity|].
      destruct l; simpl; [destruct m; reflexivity|]. f_equal. apply IHk.
Qed.

Lemma concat_data_inj {A} (ts us : list (tensor A)) :
  map t_shape ts = map t_shape us ->
  (forall t, In t ts -> wf t) -> (forall t, In t us -> wf t) ->
  concat (map t_data ts) = concat (map t_data us) -> ts = us.
Proof.
  revert us; induction ts as [|t ts IH]; intros [|u us] Hs Hw Hw' Hc; simpl in *;
    try discriminate; auto.
  injection Hs as H1 H2.
  assert (Ht : wf t) by auto. assert (Hu : wf u) by auto.
  unfold wf in *. rewrite H1 in Ht.
  assert (Hsplit : t_data t = t_data u /\ concat (map t_data ts) = concat (map t_data us)).
  { assert (L : length (t_data t) = length (t_data u)) by congruence.
    revert L Hc. generalize (t_data t), (t_data u). clear.
    induction l as [|a l IHl]; intros [|b l0] L Hc; simpl in *; try discriminate; auto.
    injection Hc as -> Hc. destruct (IHl l0) as [-> ->]; auto. }
  destruct Hsplit as [Hd Hcc]. f_equal; [|apply IH; auto].
  destruct t, u; simpl in *; congruence.
Qed.

Lemma total_flat {A} (x : tens_or_list A) : all_wf x -> length (flat x) = total_size x.
Proof.
  destruct x as [t|ts]; simpl; intros H; [exact H|].
  induction ts as [|t ts IH]; simpl; auto.
  rewrite app_length, (H t) by (simpl; auto). rewrite IH; auto.
  intros; apply H; simpl; auto.
Qed.

Lemma column_to_tensors_spec {A} (x : tens_or_list A) (data : list A) :
  length data = total_size x ->
  exists y, column_to_tensors x (mkT [length data; 1] data) = Ok y /\
    same_shapes x y /\ all_wf y /\ flat y = data.
Proof.
  destruct x as [t|ts]; cbn [total_size column_to_tensors]; intros H.
  - unfold reshape. cbn [t_data]. rewrite H, Nat.eqb_refl. cbn [bind].
    eexists; split; [reflexivity|]. cbn. repeat split; auto.
  - destruct (split_column_spec (map t_shape ts) 0 data) as (us & E & Hs & Hw & Hc).
    { rewrite map_map. lia. }
    rewrite E. cbn [bind]. exists (Many us). split; [reflexivity|].
    cbn. repeat split; auto. rewrite Hc. cbn [skipn].
    rewrite map_map, <- H. apply firstn_all.
Qed.

Lemma column_roundtrip_1 {A} (x : tens_or_list A) c :
  all_wf x -> tensors_to_column x = Ok c -> column_to_tensors x c = Ok x.
Proof.
  intros Hw Hc.
  assert (Hne : x <> Many []) by (intros ->; discriminate).
  rewrite tensors_to_column_flat in Hc by auto. injection Hc as <-.
  destruct (column_to_tensors_spec x (flat x) (total_flat x Hw)) as (y & E & Hs & Hwy & Hf).
  rewrite E. f_equal.
  destruct x as [t|ts], y as [u|us]; simpl in Hs; try contradiction; cbn in Hf, Hw, Hwy.
  - f_equal. destruct t, u; simpl in *; congruence.
  - f_equal. symmetry. apply concat_data_inj; auto.
Qed.

Lemma column_roundtrip_2 {A} (x : tens_or_list A) (data : list A) :
  x <> Many [] -> length data = total_size x ->
  exists y, column_to_tensors x (mkT [length data; 1] data) = Ok y /\
    same_shapes x y /\ tensors_to_column y = Ok (mkT [length data; 1] data).
Proof.
  intros Hne H. destruct (column_to_tensors_spec x data H) as (y & E & Hs & Hw & Hf).
  exists y. repeat split; auto.
  rewrite tensors_to_column_flat; [rewrite Hf; reflexivity|].
  intros ->. destruct x as [|[|t ts]]; simpl in Hs; try contradiction; try discriminate.
Qed.

(* ---------------------------------------------------------------- *)
(** * layer parameters *)
Lemma last_dim_app sh d : last_dim (sh ++ [d]) = Ok d.
Proof. unfold last_dim. rewrite rev_app_distr. reflexivity. Qed.

Lemma reshape_last {A} (w : tensor A) sh d :
  t_shape w = sh ++ [d] -> wf w -> d <> 0 ->
  reshape_infer w [d] = Ok (mkT [size sh; d] (t_data w)).
Proof.
  intros Hs Hw Hd. unfold reshape_infer. unfold wf in Hw. rewrite Hs, size_app in Hw.
  simpl size in *. rewrite Nat.mul_1_r in *. rewrite Hw.
  destruct (Nat.eqb_spec d 0); [congruence|].
  rewrite Nat.mod_mul, Nat.div_mul by auto. reflexivity.
Qed.

Lemma mat2d_weights {A} (w : tensor A) sh d :
  t_shape w = sh ++ [d] -> wf w -> d <> 0 ->
  layer_params_to_mat2d (LWeights w) = Ok (Mat (mkT [size sh; d] (t_data w))).
Proof.
  intros Hs Hw Hd. cbn [layer_params_to_mat2d]. rewrite Hs, last_dim_app. cbn [bind].
  rewrite (reshape_last w sh d) by auto. reflexivity.
Qed.

Lemma mat2d_pair {A} (w b : tensor A) sh d :
  t_shape w = sh ++ [d] -> wf w -> d <> 0 -> length (t_data b) = d ->
  layer_params_to_mat2d (LPair w b)
  = Ok (Mat (mkT [size sh + 1; d] (t_data w ++ t_data b))).
Proof.
  intros Hs Hw Hd Hb. cbn [layer_params_to_mat2d]. rewrite Hs, last_dim_app. cbn [bind].
  rewrite (reshape_last w sh d) by auto. cbn [bind].
  unfold concat0, reshape_row. cbn. rewrite Hb, !Nat.eqb_refl. cbn.
  rewrite app_nil_r. reflexivity.
Qed.

Lemma to_params_weights {A} (w0 : tensor A) (m : tensor A) sh d :
  t_shape w0 = sh ++ [d] -> t_shape m = [size sh; d] -> wf m ->
  mat2d_to_layer_params (LWeights w0) (Mat m) = Ok (LWeights (mkT (sh ++ [d]) (t_data m))).
Proof.
  intros Hs Hm Hw. cbn [mat2d_to_layer_params]. unfold reshape. unfold wf in Hw.
  rewrite Hw, Hm, Hs, size_app, Nat.eqb_refl. reflexivity.
Qed.

Lemma to_params_pair {A} (w0 b0 : tensor A) (dw db : list A) sh d :
  t_shape w0 = sh ++ [d] -> length dw = size sh * d -> length db = d ->
  mat2d_to_layer_params (LPair w0 b0) (Mat (mkT [size sh + 1; d] (dw ++ db)))
  = Ok (LPair (mkT (sh ++ [d]) dw) (mkT [d] db)).
Proof.
  intros Hs Hw Hb. subst d. cbn [mat2d_to_layer_params]. unfold last0. cbn [head_dim t_shape hd].
  replace (size sh + 1) with (S (size sh)) by lia. cbn [bind].
  unfold slice0. cbn [head_dim t_shape hd trailing tl t_data].
  replace (Nat.min (S (size sh) - 1) (S (size sh)) - 0) with (size sh) by lia.
  assert (E1 : size [length db] = length db) by (simpl; lia). rewrite !E1.
  cbn [Nat.mul skipn].
  rewrite <- Hw, firstn_app, firstn_all, Nat.sub_diag. cbn [firstn]. rewrite app_nil_r.
  rewrite skipn_app, skipn_all, Nat.sub_diag. cbn [skipn app].
  rewrite firstn_all.
  unfold reshape. cbn [t_data]. rewrite Hs, size_app, E1, <- Hw, Nat.eqb_refl. reflexivity.
Qed.

Lemma layer_params_roundtrip {A} (v : layer_vec A) :
  match v with
  | LWeights w => wf w /\ exists sh d, t_shape w = sh ++ [d] /\ d <> 0
  | LPair w b => wf w /\ wf b /\ exists sh d, t_shape w = sh ++ [d] /\ d <> 0 /\ t_shape b = [d]
  | LSlices _ => True
  end ->
  exists m, layer_params_to_mat2d v = Ok m /\ mat2d_to_layer_params v m = Ok v.
Proof.
  destruct v as [w|w b|i].
  - intros (Hw & sh & d & Hs & Hd). eexists. split; [apply (mat2d_weights w sh d); auto|].
    rewrite (to_params_weights w _ sh d); auto.
    + destruct w; simpl in *; congruence.
    + unfold wf in *. cbn. rewrite Hw, Hs, size_app. simpl. lia.
  - intros (Hw & Hb & sh & d & Hs & Hd & Hbs).
    assert (Hbl : length (t_data b) = d).
    { unfold wf in Hb. rewrite Hb, Hbs. simpl. lia. }
    eexists. split; [apply (mat2d_pair w b sh d); auto|].
    rewrite (to_params_pair w b _ _ sh d); auto.
    + destruct w, b; simpl in *; congruence.
    + unfold wf in Hw. rewrite Hw, Hs, size_app. simpl. lia.
  - intros _. exists (MatSlices i). split; reflexivity.
Qed.

Lemma layer_params_roundtrip_mat {A} (v : layer_vec A) (m : tensor A) :
  wf m ->
  match v with
  | LWeights w => exists sh d, t_shape w = sh ++ [d] /\ d <> 0 /\ t_shape m = [size sh; d]
  | LPair w b => exists sh d, t_shape w = sh ++ [d] /\ d <> 0 /\ t_shape m = [size sh + 1; d]
  | LSlices _ => False
  end ->
  exists v', mat2d_to_layer_params v (Mat m) = Ok v' /\ layer_params_to_mat2d v' = Ok (Mat m).
Proof.
  intros Hm. destruct v as [w|w b|i].
  - intros (sh & d & Hs & Hd & Hms). eexists. split; [apply (to_params_weights w m sh d); auto|].
    rewrite (mat2d_weights _ sh d); auto.
    + cbn. destruct m; simpl in *; congruence.
    + unfold wf in *. cbn. rewrite Hm, Hms, size_app. simpl. lia.
  - intros (sh & d & Hs & Hd & Hms).
    destruct m as [shm dm]. cbn in Hms. subst shm. unfold wf in Hm. cbn in Hm.
    rewrite <- (firstn_skipn (size sh * d) dm).
    assert (L1 : length (firstn (size sh * d) dm) = size sh * d).
    { rewrite firstn_length. lia. }
    assert (L2 : length (skipn (size sh * d) dm) = d).
    { rewrite skipn_length. lia. }
    eexists. split; [apply to_params_pair; auto|].
    rewrite (mat2d_pair _ _ sh d); auto.
    unfold wf. cbn. rewrite L1, size_app. simpl. lia.
  - contradiction.
Qed.

(** Entries of the matrix. *)
Lemma mat2d_entries {A} (w b : tensor A) sh d :
  t_shape w = sh ++ [d] -> wf w -> d <> 0 -> length (t_data b) = d ->
  exists m, layer_params_to_mat2d (LPair w b) = Ok (Mat m) /\
    t_shape m = [size sh + 1; d] /\
    (forall i j, i < size sh -> j < d ->
       entry m [i; j] = nth_error (t_data w) (i * d + j)) /\
    (forall j, j < d -> entry m [size sh; j] = nth_error (t_data b) j).
Proof.
  intros Hs Hw Hd Hb. eexists. split; [apply (mat2d_pair w b sh d); auto|].
  assert (L : length (t_data w) = size sh * d).
  { unfold wf in Hw. rewrite Hw, Hs, size_app. simpl. lia. }
  split; [reflexivity|]. split.
  - intros i j Hi Hj. unfold entry. cbn. rewrite !Nat.mul_1_r, Nat.add_0_r.
    apply nth_error_app1. rewrite L. nia.
  - intros j Hj. unfold entry. cbn. rewrite !Nat.mul_1_r, Nat.add_0_r.
    rewrite nth_error_app2 by lia. f_equal. lia.
Qed.

(* ---------------------------------------------------------------- *)
(** * SequenceDict *)
Section SkeyInd.
  Variable P : skey -> Prop.
  Hypothesis Hs : forall k, P (KScalar k).
  Hypothesis Hq : forall ks, Forall P ks -> P (KSeq ks).
  Fixpoint skey_ind' (k : skey) : P k :=
    match k with
    | KScalar k => Hs k
    | KSeq ks => Hq ks ((fix go (ks : list skey) : Forall P ks :=
                           match ks with
                           | [] => Forall_nil _
                           | k :: ks' => Forall_cons _ (skey_ind' k) (go ks')
                           end) ks)
    end.
End SkeyInd.

Fixpoint set_seq (ks : list skey) (vs : list sval) (d : sdict) : res sdict :=
  match ks, vs with
  | k :: ks', v :: vs' => do d' <- sd_set k v d; set_seq ks' vs' d'
  | _, _ => Ok d
  end.
Lemma sd_set_seq ks vs d : sd_set (KSeq ks) (VSeq vs) d = set_seq ks vs d.
Proof.
  reflexivity.
Qed.

Lemma sd_set_assigns k : forall v d d',
  sd_set k v d = Ok d' <-> exists l, assigns k v l /\ d' = rev l ++ d.
Proof.
  induction k as [k|ks IH] using skey_ind'; intros v d d'.
  - cbn. split.
    + intros H. injection H as <-. exists [(k, v)]. split; [constructor|reflexivity].
    + intros (l & Ha & ->). inversion Ha; subst. reflexivity.
  - destruct v as [o|vs].
    + cbn. split; [discriminate|]. intros (l & Ha & _). inversion Ha.
    + rewrite sd_set_seq.
      assert (G : forall ks, Forall (fun k => forall v d d',
                  sd_set k v d = Ok d' <-> exists l, assigns k v l /\ d' = rev l ++ d) ks ->
                forall vs d d', set_seq ks vs d = Ok d' <->
                   exists l, assigns_seq ks vs l /\ d' = rev l ++ d).
      { clear. induction 1 as [|k ks Hk Hf IH]; intros vs d d'.
        - cbn. split.
          + intros H. injection H as <-. exists []. split; [constructor|reflexivity].
          + intros (l & Ha & ->). inversion Ha; subst. reflexivity.
        - destruct vs as [|v vs]; cbn [set_seq].
          + split.
            * intros H. injection H as <-. exists []. split; [constructor|reflexivity].
            * intros (l & Ha & ->). inversion Ha; subst. reflexivity.
          + split.
            * destruct (sd_set k v d) as [d1|e] eqn:E; cbn [bind]; [|discriminate].
              intros H. apply Hk in E as (l1 & Ha1 & ->).
              apply IH in H as (l2 & Ha2 & ->).
              exists (l1 ++ l2). split; [constructor; auto|].
              rewrite rev_app_distr, app_assoc. reflexivity.
            * intros (l & Ha & ->). inversion Ha; subst.
              assert (E : sd_set k v d = Ok (rev l1 ++ d)) by (apply Hk; eauto).
              rewrite E. cbn [bind]. apply IH. exists l2. split; auto.
              rewrite rev_app_distr, app_assoc. reflexivity. }
      specialize (G ks IH vs d d'). rewrite G. split.
      * intros (l & Ha & ->). exists l. split; [constructor; auto|reflexivity].
      * intros (l & Ha & ->). inversion Ha; subst. eauto.
Qed.

Fixpoint sd_run (ops : list (skey * sval)) (d : sdict) : res sdict :=
  match ops with
  | [] => Ok d
  | (k, v) :: ops' => do d' <- sd_set k v d; sd_run ops' d'
  end.

Lemma sd_run_assigns ops : forall d d', sd_run ops d = Ok d' ->
  exists ls, Forall2 (fun o l => assigns (fst o) (snd o) l) ops ls /\
             d' = rev (concat ls) ++ d.
Proof.
  induction ops as [|[k v] ops IH]; intros d d' H; cbn [sd_run] in H.
  - injection H as <-. exists []. split; [constructor|reflexivity].
  - destruct (sd_set k v d) as [d1|e] eqn:E; cbn [bind] in H; [|discriminate].
    apply sd_set_assigns in E as (l & Ha & ->).
    apply IH in H as (ls & Hf & ->).
    exists (l :: ls). split; [constructor; auto|].
    cbn [concat]. rewrite rev_app_distr, app_assoc. reflexivity.
Qed.

Lemma dict_get_latest l k :
  (forall v, dict_get (rev l) k = Ok v <-> latest l k v) /\
  (dict_get (rev l) k = Raise KeyError <-> forall v, ~ In (k, v) l).
Proof.
  induction l as [|[k0 v0] l IH] using rev_ind.
  - split; [|split; auto].
    + intros v. split; [discriminate|]. intros (l1 & l2 & E & _). destruct l1; discriminate.
  - rewrite rev_app_distr. cbn [rev app dict_get]. destruct IH as [IH1 IH2].
    destruct (Nat.eqb_spec k0 k) as [->|Hne]; split.
    + intros v. split.
      * intros H. injection H as ->. exists l, []. split; auto.
      * intros (l1 & l2 & E & Hn).
        destruct l2 as [|p l2] using rev_ind.
        -- apply app_inj_tail in E as [_ E]. congruence.
        -- clear IHl2. change (l1 ++ (k, v) :: l2 ++ [p]) with (l1 ++ ((k, v) :: l2) ++ [p]) in E.
           rewrite app_assoc in E. apply app_inj_tail in E as [_ <-].
           exfalso. apply (Hn v0). apply in_or_app. right. left. reflexivity.
    + split; [discriminate|]. intros H. exfalso. apply (H v0). apply in_or_app. right. left. auto.
    + intros v. rewrite IH1. split.
      * intros (l1 & l2 & -> & Hn). exists l1, (l2 ++ [(k0, v0)]). split.
        -- rewrite <- app_assoc. reflexivity.
        -- intros v' Hin. apply in_app_or in Hin as [Hin|[Hin|[]]]; [eapply Hn; eauto|congruence].
      * intros (l1 & l2 & E & Hn).
        destruct l2 as [|p l2] using rev_ind.
        -- apply app_inj_tail in E as [_ E]. congruence.
        -- clear IHl2. change (l1 ++ (k, v) :: l2 ++ [p]) with (l1 ++ ((k, v) :: l2) ++ [p]) in E.
           rewrite app_assoc in E. apply app_inj_tail in E as [-> <-].
           exists l1, l2. split; auto. intros v' Hin. apply (Hn v'). apply in_or_app. auto.
    + rewrite IH2. split.
      * intros H v Hin. apply in_app_or in Hin as [Hin|[Hin|[]]]; [eapply H; eauto|congruence].
      * intros H v Hin. apply (H v). apply in_or_app. auto.
Qed.

Lemma sd_history ops d k :
  sd_run ops [] = Ok d ->
  exists ls, Forall2 (fun o l => assigns (fst o) (snd o) l) ops ls /\
    (forall v, sd_get d (KScalar k) = Ok v <-> latest (concat ls) k v) /\
    (sd_get d (KScalar k) = Raise KeyError <-> forall v, ~ In (k, v) (concat ls)).
Proof.
  intros H. apply sd_run_assigns in H as (ls & Hf & ->). exists ls. split; auto.
  rewrite app_nil_r. cbn [sd_get]. apply dict_get_latest.
Qed.

Lemma sd_get_seq d ks v :
  sd_get d (KSeq ks) = Ok v <->
  exists vs, v = VSeq vs /\ Forall2 (fun k v => sd_get d k = Ok v) ks vs.
Proof.
  cbn [sd_get].
  set (go := fix go (ks : list skey) : res (list sval) :=
               match ks with
               | [] => Ok []
               | k :: ks' => do v <- sd_get d k; do vs <- go ks'; Ok (v :: vs)
               end).
  assert (G : forall ks vs, go ks = Ok vs <-> Forall2 (fun k v => sd_get d k = Ok v) ks vs).
  { clear. induction ks as [|k ks IH]; intros vs; cbn [go].
    - split; [intros H; injection H as <-; constructor|]. intros H; inversion H; auto.
    - destruct (sd_get d k) as [x|e] eqn:E; cbn [bind].
      + destruct (go ks) as [xs|e] eqn:E2; cbn [bind].
        * split.
          -- intros H. injection H as <-. constructor; auto. apply IH; auto.
          -- intros H. inversion H as [|? ? ? ? Hy Hl]; subst. apply IH in Hl. congruence.
        * split; [discriminate|]. intros H. inversion H as [|? ? ? ? Hy Hl]; subst.
          apply IH in Hl. congruence.
      + split; [discriminate|]. intros H. inversion H as [|? ? ? ? Hy Hl]; subst. congruence. }
  destruct (go ks) as [vs|e] eqn:E; cbn [bind].
  - split.
    + intros H. injection H as <-. exists vs. split; auto. apply G; auto.
    + intros (vs' & -> & Hf). apply G in Hf. congruence.
  - split; [discriminate|]. intros (vs' & -> & Hf). apply G in Hf. congruence.
Qed.

Lemma sd_set_elementwise ks vs d :
  length ks = length vs ->
  sd_set (KSeq ks) (VSeq vs) d = sd_run (combine ks vs) d.
Proof.
  rewrite sd_set_seq. revert vs d; induction ks as [|k ks IH]; intros [|v vs] d H;
    simpl in H; try discriminate; auto.
  cbn [set_seq combine sd_run]. destruct (sd_set k v d); cbn [bind]; auto.
Qed.

(** Assigning a sequence of distinct scalar keys and reading it back. *)
Lemma sd_roundtrip ks vs d :
  NoDup ks -> length ks = length vs ->
  exists d', sd_set (KSeq (map KScalar ks)) (VSeq vs) d = Ok d' /\
    sd_get d' (KSeq (map KScalar ks)) = Ok (VSeq vs) /\
    forall k, ~ In k ks -> sd_get d' (KScalar k) = sd_get d (KScalar k).
Proof.
  rewrite sd_set_seq.
  revert vs d; induction ks as [|k ks IH]; intros [|v vs] d Hnd Hl; simpl in Hl; try discriminate.
  - exists d. repeat split; auto.
  - inversion Hnd as [|? ? Hni Hnd']; subst.
    cbn [map set_seq sd_set bind].
    destruct (IH vs (dict_set d k v)) as (d' & E & Hg & Ho); auto.
    exists d'. split; [exact E|]. split.
    + apply sd_get_seq. exists (v :: vs). split; auto.
      apply sd_get_seq in Hg as (vs' & Ev & Hf). injection Ev as <-.
      constructor; auto. rewrite Ho by auto. cbn. rewrite Nat.eqb_refl. reflexivity.
    + intros k' Hk'. rewrite Ho by (intros Hc; apply Hk'; simpl; auto).
      cbn. destruct (Nat.eqb_spec k k') as [->|]; auto. exfalso. apply Hk'. simpl; auto.
Qed.

(* ---------------------------------------------------------------- *)
(** * PartitionedTensor *)
Lemma shape_eqb_eq a b : shape_eqb a b = true <-> a = b.
Proof.
  revert b; induction a as [|x a IH]; intros [|y b]; simpl; try (split; congruence).
  rewrite andb_true_iff, Nat.eqb_eq, IH. split; [intros [-> ->]; auto|]. intros H; injection H; auto.
Qed.
Lemma opt_eqb_eq a b : opt_eqb a b = true <-> a = b.
Proof.
  destruct a, b; simpl; try (split; congruence). rewrite Nat.eqb_eq. split; congruence.
Qed.

Lemma make_ptensor_ok {A} il (ps : list (part A)) :
  (exists t, make_ptensor il ps = Ok t) <->
  ps <> [] /\ forall p q, In p ps -> In q ps ->
     p_dtype p = p_dtype q /\ p_feature p = p_feature q /\ p_onehot p = p_onehot q.
Proof.
  destruct ps as [|p ps].
  - split; [intros [t H]; discriminate|]. intros [H _]; congruence.
  - unfold make_ptensor.
    set (l := p :: ps).
    destruct (forallb (fun q => p_dtype q =? p_dtype p) l) eqn:E1;
    destruct (forallb (fun q => shape_eqb (p_feature q) (p_feature p)) l) eqn:E2;
    destruct (forallb (fun q => opt_eqb (p_onehot q) (p_onehot p)) l) eqn:E3; cbn [negb].
    1: { split; [|eauto]. intros _. split; [unfold l; congruence|].
         rewrite forallb_forall in E1, E2, E3.
         assert (G : forall q, In q l -> p_dtype q = p_dtype p /\ p_feature q = p_feature p /\
                                        p_onehot q = p_onehot p).
         { intros q Hq. repeat split; [apply Nat.eqb_eq|apply shape_eqb_eq|apply opt_eqb_eq]; auto. }
         intros q1 q2 H1 H2. destruct (G _ H1) as (? & ? & ?), (G _ H2) as (? & ? & ?).
         repeat split; congruence. }
    all: split; [intros [t H]; discriminate|]; intros [_ H]; exfalso;
      assert (Hp : In p l) by (simpl; auto);
      try (assert (forallb (fun q => p_dtype q =? p_dtype p) l = true); [|congruence];
           apply forallb_forall; intros q Hq; apply Nat.eqb_eq; apply H; auto; fail);
      try (assert (forallb (fun q => shape_eqb (p_feature q) (p_feature p)) l = true); [|congruence];
           apply forallb_forall; intros q Hq; apply shape_eqb_eq; apply H; auto; fail);
      try (assert (forallb (fun q => opt_eqb (p_onehot q) (p_onehot p)) l = true); [|congruence];
           apply forallb_forall; intros q Hq; apply opt_eqb_eq; apply H; auto; fail).
Qed.

Lemma make_ptensor_parts {A} il (ps : list (part A)) t :
  make_ptensor il ps = Ok t -> t = mkPT il ps.
Proof.
  unfold make_ptensor. destruct ps as [|p ps]; [discriminate|].
  destruct (negb _); [discriminate|]. destruct (negb _); [discriminate|].
  destruct (negb _); [discriminate|]. congruence.
Qed.
Lemma make_ptensor_raises {A} il (ps : list (part A)) e :
  make_ptensor il ps = Raise e -> e = ValueError.
Proof.
  unfold make_ptensor. destruct ps as [|p ps]; [congruence|].
  destruct (negb _); [congruence|]. destruct (negb _); [congruence|].
  destruct (negb _); [congruence|]. congruence.
Qed.

Lemma pt_batch_exact {A} (ps : list (part A)) :
  (forall p, In p ps -> p_batch p = Some (length (p_rows p))) ->
  fold_left dim_add (map p_batch ps) (Some 0) = Some (length (concat (map p_rows ps))).
Proof.
  intros H. assert (G : forall n, fold_left dim_add (map p_batch ps) (Some n)
                        = Some (n + length (concat (map p_rows ps)))).
  { induction ps as [|p ps IH]; intros n; simpl; [f_equal; lia|].
    rewrite (H p) by (simpl; auto). simpl. rewrite IH by (intros; apply H; simpl; auto).
    rewrite app_length. f_equal. lia. }
  apply G.
Qed.
Lemma pt_batch_consistent {A} (ps : list (part A)) n :
  (forall p m, In p ps -> p_batch p = Some m -> m = length (p_rows p)) ->
  fold_left dim_add (map p_batch ps) (Some 0) = Some n ->
  n = length (concat (map p_rows ps)).
Proof.
  intros H. assert (N : forall l, fold_left dim_add l None = None).
  { induction l; simpl; auto. }
  assert (G : forall k, fold_left dim_add (map p_batch ps) (Some k) = Some n ->
                        n = k + length (concat (map p_rows ps))).
  { induction ps as [|p ps IH]; intros k Hk; simpl in *; [injection Hk; lia|].
    destruct (p_batch p) as [m|] eqn:E; simpl in Hk; [|rewrite N in Hk; discriminate].
    rewrite app_length. rewrite (H p m) in Hk by auto.
    apply IH in Hk; [lia|]. intros; eapply H; eauto. }
  intros H0. apply G in H0. simpl in H0. exact H0.
Qed.

Lemma pt_eqb_spec {A} (p q : ptensor A) :
  pt_eqb p q = true <->
  pt_list p = pt_list q /\ map p_id (pt_parts p) = map p_id (pt_parts q).
Proof. unfold pt_eqb. rewrite andb_true_iff, eqb_true_iff, shape_eqb_eq. tauto. Qed.

Lemma ptensor_shape {A} il (ps : list (part A)) t :
  make_ptensor il ps = Ok t ->
  pt_as_tensor t = concat (map p_rows ps) /\
  (forall p, In p ps -> snd (pt_shape t) = p_feature p /\ pt_dtype t = p_dtype p /\
                        pt_onehot t = p_onehot p) /\
  (forall n, (forall p m, In p ps -> p_batch p = Some m -> m = length (p_rows p)) ->
     fst (pt_shape t) = Some n -> n = length (pt_as_tensor t)) /\
  ((forall p, In p ps -> p_batch p = Some (length (p_rows p))) ->
     fst (pt_shape t) = Some (length (pt_as_tensor t))).
Proof.
  intros H. destruct (proj1 (make_ptensor_ok il ps) (ex_intro _ t H)) as [Hne Hag].
  rewrite (make_ptensor_parts _ _ _ H). split; [reflexivity|]. split; [|split].
  - intros p Hp. destruct ps as [|q ps]; [congruence|].
    destruct (Hag q p) as (H1 & H2 & H3); [simpl; auto|auto|].
    cbn. auto.
  - intros n Hc Hn. cbn in Hn. apply (pt_batch_consistent ps n); auto.
  - intros Hc. cbn. apply pt_batch_exact; auto.
Qed.

Lemma ptensor_equality {A} (p q : ptensor A) :
  (pt_eqb p q = true <->
   pt_list p = pt_list q /\ map p_id (pt_parts p) = map p_id (pt_parts q)) /\
  (pt_eqb p q = true -> forall h, pt_hash h p = pt_hash h q).
Proof.
  split; [apply pt_eqb_spec|]. intros H h. apply pt_eqb_spec in H as [_ H].
  unfold pt_hash. rewrite H. reflexivity.
Qed.

Lemma ptensor_device {A} (t : ptensor A) (d : nat) :
  pt_device t = Some d <->
  pt_parts t <> [] /\ forall p, In p (pt_parts t) -> p_device p = d.
Proof.
  unfold pt_device. destruct (pt_parts t) as [|q l] eqn:E.
  - split; [discriminate|tauto].
  - destruct (forallb _ (q :: l)) eqn:F.
    + rewrite forallb_forall in F. split.
      * intros H; injection H as <-. split; [discriminate|].
        intros p Hp. apply Nat.eqb_eq, F, Hp.
      * intros [_ H]. f_equal. apply H. simpl; auto.
    + split; [discriminate|]. intros [_ H]. exfalso.
      assert (G : forallb (fun r => Nat.eqb (p_device r) (p_device q)) (q :: l) = true).
      { apply forallb_forall. intros x Hx. apply Nat.eqb_eq.
        rewrite (H x Hx), (H q); simpl; auto. }
      congruence.
Qed.
